(** Makefiles with characters outside ASCII: what reading a few of them gives (C55). *)
From Coq Require Import String.
From Verif Require Import Base LocModel EvdModel AstModel EngineModel ParseModel ModelTests EvdSpec DbSpec ParseSpec EvalSpec EngineSpec EngineExamples.
Open Scope string_scope.
Open Scope list_scope.

(** U+00E9, two bytes in UTF-8. *)
Definition e_acute : char := 233%N.

Lemma bom_shortens : exists w, reads_to no_files (c_bom :: mk "x = 12345~") (Ok (w, MOk)) /\ has_value no_files w (lit "x") (lit "123").
Proof. eexists. split; [by_run|by_value]. Qed.
Lemma bom_forgets : exists w, reads_to no_files (c_bom :: mk "x = 12345678~y = 2~z = 1~") (Ok (w, MOk)) /\ has_value no_files w (lit "x") (lit "123456") /\ undefined w (lit "z").
Proof. eexists. split; [by_run|split; [by_value|vm_compute; reflexivity]]. Qed.
Lemma plain_kept : exists w, reads_to no_files (mk "x = 12345~") (Ok (w, MOk)) /\ has_value no_files w (lit "x") (lit "12345").
Proof. eexists. split; [by_run|by_value]. Qed.
Lemma value_swallows : exists w, reads_to no_files (lit "x = a" ++ [e_acute] ++ mk "b~y = 12345~") (Ok (w, MOk)) /\
  has_value no_files w (lit "x") (lit "a" ++ [e_acute] ++ mk "b~y = 12345~") /\ undefined w (lit "y").
Proof. eexists. split; [by_run|split; [by_value|vm_compute; reflexivity]]. Qed.
Lemma value_panics : reads_to no_files (lit "x = " ++ [e_acute] ++ mk "~") Panic.
Proof. by_run. Qed.
Lemma comment_panics : reads_to no_files (lit "# " ++ [e_acute] ++ mk "~x = 12345~y = 2~") Panic.
Proof. by_run. Qed.
Lemma value_at_end : exists w, reads_to no_files (lit "x = a" ++ [e_acute]) (Ok (w, MOk)) /\ has_value no_files w (lit "x") (lit "a" ++ [e_acute]).
Proof. eexists. split; [by_run|by_value]. Qed.
