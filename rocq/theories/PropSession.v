(** Property theorems about several makefiles that are read into the same engine (C53). *)
From Coq Require Import String.
From Verif Require Import Base LocModel EvdModel AstModel EngineModel ParseModel ModelTests EvdSpec DbSpec ParseSpec EvalSpec EngineSpec MakeSpec CrashSpec WriteSpec StopSpec SessionSpec
  EngineExamples WriteExamples SessionProofs SessionExamples.
Open Scope string_scope.
Open Scope list_scope.

(** * C53: one makefile after the other *)

(** A makefile is read by the same rules ([MakeSpec]) whatever was read before it: it
    begins with the variables, rules and files of the makefiles before it, and nothing
    else.  A reader that fails changes nothing. *)
Theorem C53_sequence : forall fs cs rs st, ascii_files fs -> session fs m_start cs rs st -> exists w, reads_each fs cs (Ok (w, rs)) /\ shows fs st w.
Proof. exact session_good. Qed.
Print Assumptions C53_sequence.

Example C53_sequence_case : exists st, session no_files m_start some_calls [MOk; MIOError 5; MOk] st.
Proof. exact session_case. Qed.

(** The same for makefiles written out from statements ([WriteSpec]). *)
Theorem C53_statements : forall fs cs rs s, ascii_files fs -> reads_in fs w_start cs rs s -> exists w, reads_each fs cs (Ok (w, rs)) /\ shows_state fs s w.
Proof. exact reads_in_good. Qed.
Print Assumptions C53_statements.

(** And the sensitivities are right after any sequence of makefiles (C54). *)
Theorem C54_session : forall fs cs rs s, ascii_files fs -> reads_in fs w_start cs rs s -> exists w, reads_each fs cs (Ok (w, rs)) /\ shows_state fs s w /\ tracks_state fs s w.
Proof. exact reads_in_tracks. Qed.
Print Assumptions C54_session.

(** A makefile that ends the program ([StopSpec]) does so after any others. *)
Theorem C53_stops : forall fs cs rs s n t more, ascii_files fs -> reads_in fs w_start cs rs s -> file_stops fs (begun s) t ->
  reads_each fs (cs ++ (n, inr t) :: more) Panic.
Proof. exact reads_in_crash. Qed.
Print Assumptions C53_stops.

Example C53_case : exists s v, reads_in no_files w_start some_calls [MOk; MIOError 5; MOk] s /\ w_env s (lit "x") = Some v /\ val_says (w_env s) v (lit "12 3") /\
  rule_is s (lit "a") [lit "b"] [[t_ "cc b"]] false /\ file_stops no_files (begun s) (mk "z = 1~endif~w = 2~").
Proof. exact calls_case. Qed.

(** A makefile may be cut into pieces, under any names, between two statements, as long as
    no recipe could be added there and lines are not being ignored: reading the pieces one
    after the other defines what reading the whole defines.  Missing: the other places
    (see below). *)
Theorem C53_pieces_partial : forall fs s cs, ascii_files fs -> pieces fs w_start (List.map snd cs) s ->
  (exists w, reads_to fs (concat (List.map (fun c => show_all (snd c)) cs)) (Ok (w, MOk)) /\ shows_state fs s w) /\
  (exists w, reads_each fs (List.map (fun c => (fst c, inr (show_all (snd c)))) cs) (Ok (w, List.map (fun _ => MOk) cs)) /\ shows_state fs s w).
Proof. exact pieces_alike. Qed.
Print Assumptions C53_pieces_partial.

Example C53_pieces_case : exists s, pieces no_files w_start (List.map snd some_pieces) s /\ w_env s (lit "y") = Some (Now [lit "2"]) /\
  rule_is s (lit "a") [lit "b"] [[t_ "cc b"]] false /\ rule_is s (lit "d") [] [] false.
Proof. exact pieces_case. Qed.

(** A rule at the end of a piece is lost, whatever comes before it. *)
Theorem C53_last_rule_refuted : forall fs ss s ts double deps recipe d z e n n', ascii_files fs -> every well_formed ss -> acts_all fs true w_start ss s -> w_deaf s = false ->
  well_formed (SRule ts double deps recipe) -> says (w_env s) deps d -> safe_deps d -> well_formed (SAssign z OSet e) ->
  (exists w, reads_each fs [(n, inr (show_all ss ++ show_stmt (SRule ts double deps recipe))); (n', inr (show_stmt (SAssign z OSet e)))] (Ok (w, [MOk; MOk])) /\
     shows_state fs (assign_to (finish s) z (Later e)) w) /\
  (exists w, reads_to fs (show_all ss ++ show_stmt (SRule ts double deps recipe) ++ show_stmt (SAssign z OSet e)) (Ok (w, MOk)) /\
     shows_state fs (assign_to (finish (open_rule (finish s) ts (rule_with (w_env s) deps d recipe double))) z (Later e)) w).
Proof. exact last_rule_lost. Qed.
Print Assumptions C53_last_rule_refuted.

Example C53_last_rule_case : every well_formed first_mk /\ well_formed (SRule [lit "all"] true [t_ "prog"] [[t_ "cc"; Dol]]) /\ well_formed (SAssign (lit "z") OSet [r_ "x"]) /\
  exists s, acts_all no_files true w_start first_mk s /\ w_deaf s = false /\ says (w_env s) [t_ "prog"] (lit "prog") /\ safe_deps (lit "prog").
Proof. exact lost_case. Qed.
