(** Property theorems about makefiles with characters outside ASCII (C55).  [reads_to],
    [has_value] and [undefined] are in [EngineSpec], the meaning of a text ([runs], [shows]) in
    [MakeSpec]; `~` stands for a line break in [mk]. *)
From Coq Require Import String.
From Verif Require Import Base LocModel EvdModel AstModel EngineModel ParseModel ModelTests EvdSpec DbSpec ParseSpec EvalSpec EngineSpec MakeSpec EngineExamples
  MakeProofs5 Utf8Examples.
Open Scope string_scope.
Open Scope list_scope.

(** * C55: makefiles in UTF-8 *)

(** A makefile in ASCII, without a byte order mark, has the meaning its text says.  Missing: all
    other characters and the byte order mark (refuted below). *)
Theorem C55_ascii_partial : forall fs text st, ascii_files fs -> asciis text -> runs fs m_begin (file_text 0 text) st ->
  exists w, reads_to fs text (Ok (w, MOk)) /\ shows fs st w /\ world_good w.
Proof. exact makefile_runs. Qed.
Print Assumptions C55_ascii_partial.

Example C55_ascii_case : exists w, reads_to no_files (mk "x = 12345~") (Ok (w, MOk)) /\ has_value no_files w (lit "x") (lit "12345").
Proof. exact plain_kept. Qed.

(** After a byte order mark the ends of lines are looked for two characters too early: the first
    line loses its last two characters. *)
Theorem C55_mark_refuted : exists w, reads_to no_files (c_bom :: mk "x = 12345~") (Ok (w, MOk)) /\ has_value no_files w (lit "x") (lit "123").
Proof. exact bom_shortens. Qed.
Print Assumptions C55_mark_refuted.

(** And the lines after it are not read as they are written. *)
Theorem C55_mark_lines_refuted : exists w, reads_to no_files (c_bom :: mk "x = 12345678~y = 2~z = 1~") (Ok (w, MOk)) /\
  has_value no_files w (lit "x") (lit "123456") /\ undefined w (lit "z").
Proof. exact bom_forgets. Qed.
Print Assumptions C55_mark_lines_refuted.

(** A value with an accented letter takes in the rest of the makefile. *)
Theorem C55_value_refuted : exists w, reads_to no_files (lit "x = a" ++ [e_acute] ++ mk "b~y = 12345~") (Ok (w, MOk)) /\
  has_value no_files w (lit "x") (lit "a" ++ [e_acute] ++ mk "b~y = 12345~") /\ undefined w (lit "y").
Proof. exact value_swallows. Qed.
Print Assumptions C55_value_refuted.

(** At the end of a line it ends the program. *)
Theorem C55_last_letter_refuted : reads_to no_files (lit "x = " ++ [e_acute] ++ mk "~") Panic.
Proof. exact value_panics. Qed.
Print Assumptions C55_last_letter_refuted.

(** So does one in a comment. *)
Theorem C55_comment_refuted : reads_to no_files (lit "# " ++ [e_acute] ++ mk "~x = 12345~y = 2~") Panic.
Proof. exact comment_panics. Qed.
Print Assumptions C55_comment_refuted.

(** On a last line without a line break the value is right. *)
Example C55_end_case : exists w, reads_to no_files (lit "x = a" ++ [e_acute]) (Ok (w, MOk)) /\ has_value no_files w (lit "x") (lit "a" ++ [e_acute]).
Proof. exact value_at_end. Qed.
