(** Proofs about several makefiles that are read one after the other. *)
From Coq Require Import String.
From Verif Require Import Base LocModel EvdModel AstModel EngineModel EvdSpec DbSpec ParseModel ParseSpec EvalSpec AstParseSpec EngineSpec MakeSpec CrashSpec
  EngineProofs SafeProofs2 EvdProofs2 ParseProofs EvalProofs4 MakeProofs MakeProofs5 MakeRun CrashProofs3 WriteSpec StopSpec SessionSpec WriteProofs WriteProofs2 WriteProofs3 WriteProofs4 WriteProofs5 WriteProofs9
  WriteProofs6 WriteProofs7 StopProofs2.
Local Open Scope nat_scope.

(** * Texts *)
Definition pleasing (fs : str -> file) (st : mstate) (w : world) (cs : list call) (rs : list mresult) (st' : mstate) : Prop :=
  exists w' enough, (forall fuel, enough <= fuel -> read_each fs fuel w cs = Ok (w', rs)) /\ (exists s', sim st' s' w') /\ world_good w'.
Lemma session_from : forall fs st cs rs st', ascii_files fs -> session fs st cs rs st' -> forall s w, sim st s w -> world_good w -> pleasing fs st w cs rs st'.
Proof.
  intros fs st cs rs st' FS S. induction S as [st|st n k cs rs st' S IH|st n t st1 cs rs st' A R S IH]; intros s w SI G.
  - exists w, 0. split; [reflexivity|]. eauto.
  - destruct (IH s w SI G) as (w' & en & E & Q). exists w', en. split; [|exact Q]. intros fuel L. cbn [read_each read_makefile bind]. rewrite E by exact L. reflexivity.
  - destruct (read_reads fs st s w n t st1 FS A SI G (proj1 (runs_takes_sim fs FS) _ _ _ R)) as (w1 & s1 & e1 & E1 & SI1 & G1 & GR1).
    destruct (IH pstate_new w1) as (w' & e2 & E2 & Q); [|exact G1|].
    + destruct SI1 as []. constructor; cbn; auto.
    + exists w', (Nat.max e1 e2). split; [|exact Q]. intros fuel L. cbn [read_each read_makefile]. rewrite E1 by lia. cbn [bind]. rewrite E2 by lia. reflexivity.
Qed.

Lemma session_good : forall fs cs rs st, ascii_files fs -> session fs m_start cs rs st -> exists w, reads_each fs cs (Ok (w, rs)) /\ shows fs st w.
Proof.
  intros fs cs rs st FS S. destruct (session_from _ _ _ _ _ FS S _ _ sim_start new_good) as (w & en & E & (s & SI) & G).
  exists w. split; [exists en; exact E|]. eapply rep_shows; eassumption.
Qed.

(** A crash ends the program. *)
Lemma crash_from : forall fs st cs rs st', ascii_files fs -> session fs st cs rs st' -> forall n t more s w, asciis t -> sim st s w -> world_good w ->
  crashes fs (fresh st' n) (file_text (number st' n) t) ->
  exists enough, forall fuel, enough <= fuel -> read_each fs fuel w (cs ++ (n, inr t) :: more) = Panic.
Proof.
  intros fs st cs rs st' FS S. induction S as [st|st n k cs rs st' S IH|st n t st1 cs rs st' A R S IH]; intros n' t' more s w A' SI G C.
  - destruct (read_breaks fs st s w n' t' FS A' SI G (proj1 (crash_both fs FS) _ _ C)) as (en & E). exists en. intros fuel L.
    cbn [app read_each read_makefile]. rewrite E by exact L. reflexivity.
  - destruct (IH n' t' more s w A' SI G C) as (en & E). exists en. intros fuel L. cbn [app read_each read_makefile bind]. rewrite E by exact L. reflexivity.
  - destruct (read_reads fs st s w n t st1 FS A SI G (proj1 (runs_takes_sim fs FS) _ _ _ R)) as (w1 & s1 & e1 & E1 & SI1 & G1 & GR1).
    destruct (IH n' t' more pstate_new w1 A') as (e2 & E2); [|exact G1|exact C|].
    + destruct SI1 as []. constructor; cbn; auto.
    + exists (Nat.max e1 e2). intros fuel L. cbn [app read_each read_makefile]. rewrite E1 by lia. cbn [bind]. rewrite E2 by lia. reflexivity.
Qed.

(** * Statements *)
Lemma fresh_rel : forall s st n, rel s st -> rel (begun s) (fresh st n).
Proof. intros s st n [Q1 Q2 Q3 Q4 Q5]. constructor; cbn; auto. Qed.
Lemma nested_rel : forall s st, rel s st -> rel (begun s) (MakeSpec.nested st).
Proof. intros s st [Q1 Q2 Q3 Q4 Q5]. constructor; cbn; auto. Qed.
Lemma begun_twice : forall s, begun (begun s) = begun s.
Proof. reflexivity. Qed.

Lemma written_session : forall fs s cs rs s', reads_in fs s cs rs s' -> forall st, rel s st -> exists st', session fs st cs rs st' /\ rel s' st'.
Proof.
  intros fs s cs rs s' S. induction S as [s|s n k cs rs s' S IH|s n t ss s1 cs rs s' W F A S IH]; intros st R.
  - exists st. split; [constructor|exact R].
  - destruct (IH st R) as (st' & S' & R'). exists st'. split; [constructor; exact S'|exact R'].
  - destruct (written_run fs ss t (begun s) s1 (fresh st n) (number st n) W F (proj1 (proj2 (acts_run fs)) _ _ _ _ A F) (fresh_rel _ _ _ R) eq_refl eq_refl) as (st1 & Ru & R1 & _).
    destruct (IH (MakeSpec.nested st1) (nested_rel _ _ R1)) as (st' & S' & R'). exists st'. split; [|exact R'].
    eapply SE_read; [eapply written_ascii; eassumption|exact Ru|exact S'].
Qed.
Lemma reads_in_good : forall fs cs rs s, ascii_files fs -> reads_in fs w_start cs rs s -> exists w, reads_each fs cs (Ok (w, rs)) /\ shows_state fs s w.
Proof.
  intros fs cs rs s FS S. destruct (written_session _ _ _ _ _ S m_start (start_rel m_start eq_refl eq_refl eq_refl eq_refl eq_refl)) as (st & S' & R).
  destruct (session_good _ _ _ _ FS S') as (w & E & Sh). exists w. split; [exact E|]. eapply shown_state; eassumption.
Qed.
Lemma reads_in_tracks : forall fs cs rs s, ascii_files fs -> reads_in fs w_start cs rs s -> exists w, reads_each fs cs (Ok (w, rs)) /\ shows_state fs s w /\ tracks_state fs s w.
Proof.
  intros fs cs rs s FS S. destruct (written_session _ _ _ _ _ S m_start (start_rel m_start eq_refl eq_refl eq_refl eq_refl eq_refl)) as (st & S' & R).
  destruct (session_good _ _ _ _ FS S') as (w & E & Sh). exists w. split; [exact E|]. split; [eapply shown_state; eassumption|eapply tracked_state; eassumption].
Qed.
Lemma reads_in_crash : forall fs cs rs s n t more, ascii_files fs -> reads_in fs w_start cs rs s -> file_stops fs (begun s) t ->
  reads_each fs (cs ++ (n, inr t) :: more) Panic.
Proof.
  intros fs cs rs s n t more FS S F. destruct (written_session _ _ _ _ _ S m_start (start_rel m_start eq_refl eq_refl eq_refl eq_refl eq_refl)) as (st & S' & R).
  destruct (crash_from _ _ _ _ _ FS S' n t more _ _ (file_stops_ascii _ _ _ F) sim_start new_good) as (en & E); [|exists en; exact E].
  apply (proj2 (proj2 (stops_crash fs)) _ _ F); [apply fresh_rel; exact R|reflexivity|reflexivity|apply file_unbroken|apply file_chars].
Qed.

(** Makefiles in pieces. *)
Definition call_of (p : str * list stmt) : call := (fst p, inr (show_all (snd p))).
Lemma begun_same : forall s, w_open s = None -> w_deaf s = false -> begun s = s.
Proof. intros [] O D. cbn in *. subst. reflexivity. Qed.
Lemma pieces_read : forall fs s ps s', pieces fs s ps s' -> w_open s = None -> w_deaf s = false -> forall cs, List.map snd cs = ps ->
  exists s'', reads_in fs s (List.map call_of cs) (List.map (fun _ => MOk) cs) s'' /\ w_env s'' = w_env s' /\ w_rules s'' = w_rules s'.
Proof.
  intros fs s ps s' P. induction P as [s p s' F A|s p s1 ps s' F A O1 D1 P IH]; intros O D cs E.
  - destruct cs as [|[n q] [|]]; try discriminate E. injection E as ->. exists (begun s'). split; [|split; reflexivity].
    cbn. eapply RI_read; [constructor|exact F|rewrite begun_same; eassumption|constructor].
  - destruct cs as [|[n q] cs]; try discriminate E. cbn in E. injection E as -> E. destruct (IH O1 D1 cs E) as (s'' & R & Q). exists s''. split; [|exact Q].
    cbn. eapply RI_read; [constructor|exact F|rewrite begun_same; eassumption|]. rewrite (begun_same s1) by assumption. exact R.
Qed.
Lemma pieces_acts : forall fs s ps s', pieces fs s ps s' -> acts_all fs true s (concat ps) s' /\ every well_formed (concat ps).
Proof.
  intros fs s ps s' P. induction P as [s p s' F A|s p s1 ps s' F A O1 D1 P [IH IH']]; cbn [concat].
  - rewrite app_nil_r. auto.
  - split; [eapply acts_app; eassumption|apply every_app; auto].
Qed.
Lemma show_concat : forall ps, show_all (concat ps) = concat (List.map show_all ps).
Proof. induction ps as [|p ps IH]; [reflexivity|]. cbn [concat List.map]. rewrite show_app, IH. reflexivity. Qed.
Lemma pieces_alike : forall fs s cs, ascii_files fs -> pieces fs w_start (List.map snd cs) s ->
  (exists w, reads_to fs (concat (List.map (fun c => show_all (snd c)) cs)) (Ok (w, MOk)) /\ shows_state fs s w) /\
  (exists w, reads_each fs (List.map (fun c => (fst c, inr (show_all (snd c)))) cs) (Ok (w, List.map (fun _ => MOk) cs)) /\ shows_state fs s w).
Proof.
  intros fs s cs FS P. split.
  - destruct (pieces_acts _ _ _ _ P) as [A F]. replace (concat _) with (show_all (concat (List.map snd cs))) by (rewrite show_concat, map_map; reflexivity).
    apply (exactly fs _ s A FS F).
  - destruct (pieces_read _ _ _ _ P eq_refl eq_refl cs eq_refl) as (s'' & R & E & Q). destruct (reads_in_good _ _ _ _ FS R) as (w & Re & Sh).
    exists w. split; [exact Re|]. destruct s'' as [en op ru de]. cbn in E, Q. subst. exact Sh.
Qed.

(** The last rule of a makefile is lost. *)
Lemma last_rule_lost : forall fs ss s ts double deps recipe d z e n n', ascii_files fs -> every well_formed ss -> acts_all fs true w_start ss s -> w_deaf s = false ->
  well_formed (SRule ts double deps recipe) -> says (w_env s) deps d -> safe_deps d -> well_formed (SAssign z OSet e) ->
  (exists w, reads_each fs [(n, inr (show_all ss ++ show_stmt (SRule ts double deps recipe))); (n', inr (show_stmt (SAssign z OSet e)))] (Ok (w, [MOk; MOk])) /\
     shows_state fs (assign_to (finish s) z (Later e)) w) /\
  (exists w, reads_to fs (show_all ss ++ show_stmt (SRule ts double deps recipe) ++ show_stmt (SAssign z OSet e)) (Ok (w, MOk)) /\
     shows_state fs (assign_to (finish (open_rule (finish s) ts (rule_with (w_env s) deps d recipe double))) z (Later e)) w).
Proof.
  intros fs ss s ts double deps recipe d z e n n' FS F A D Fr Sd Sf Fz. split.
  - eassert (R : reads_in fs w_start [(n, inr (show_all (ss ++ [SRule ts double deps recipe]))); (n', inr (show_all [SAssign z OSet e]))] [MOk; MOk] _).
    { eapply RI_read; [constructor|apply every_app; split; [exact F|split; [exact Fr|exact Logic.I]]| |].
      - eapply acts_app; [exact A|]. econstructor; [eapply A_rule; eassumption|constructor].
      - eapply RI_read; [constructor|split; [exact Fz|exact Logic.I]| |constructor]. econstructor; [apply A_assign; [reflexivity|apply G_set]|constructor]. }
    destruct (reads_in_good _ _ _ _ FS R) as (w & Re & Sh). rewrite show_app in Re. unfold show_all at 2 3 in Re. cbn [List.map concat] in Re. rewrite !app_nil_r in Re.
    exists w. split; [exact Re|]. unfold finish in Sh |- *. cbn in Sh |- *. destruct (w_open s) as [[]|]; exact Sh.
  - eassert (Do : acts_all fs true w_start (ss ++ [SRule ts double deps recipe; SAssign z OSet e]) _).
    { eapply acts_app; [exact A|]. econstructor; [eapply A_rule; eassumption|]. econstructor; [apply A_assign; [|apply G_set]|constructor]. rewrite <- D. apply finish_deaf. }
    destruct (exactly _ _ _ Do FS) as (w & Re & Sh); [apply every_app; split; [exact F|split; [exact Fr|split; [exact Fz|exact Logic.I]]]|].
    rewrite show_app in Re. unfold show_all at 2 in Re. cbn [List.map concat] in Re. rewrite app_nil_r in Re. exists w. split; [exact Re|exact Sh].
Qed.
