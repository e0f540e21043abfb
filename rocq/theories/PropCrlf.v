(** Property theorems about texts with Windows line endings (C27). *)
From Coq Require Import String.
From Verif Require Import Base LocModel EvdModel AstModel EngineModel EvdSpec DbSpec ParseModel ParseSpec EvalSpec AstParseSpec EngineSpec MakeSpec CrashSpec
  WriteSpec WriteProofs7 StopSpec CrlfProofs.

(** * C27: Windows line endings *)

(** Every value assigned on a line that ends in CRLF has the carriage return at its end;
    the same line with a LF does not. *)
Theorem C27_value_refuted : forall fs x v, ascii_files fs -> name x -> plain_value v ->
  (exists w, reads_to fs (x ++ lit " = " ++ v ++ crlf) (Ok (w, MOk)) /\ has_value fs w x (v ++ [13%N])) /\
  (exists w, reads_to fs (x ++ lit " = " ++ v ++ nl) (Ok (w, MOk)) /\ has_value fs w x v).
Proof. exact cr_kept. Qed.
Print Assumptions C27_value_refuted.
Example C27_value_case : name (lit "CC") /\ plain_value (lit "gcc -O2").
Proof. exact (conj (proj1 crlf_case) (proj1 (proj2 crlf_case))). Qed.

(** A backslash at the end of such a line does not continue it: it is part of the value,
    and what follows is a line of its own. *)
Theorem C27_continuation_refuted : forall fs x v y u, ascii_files fs -> name x -> plain_value v -> name y -> y <> x -> plain_value u ->
  exists w, reads_to fs (x ++ lit " = " ++ v ++ lit "\" ++ crlf ++ y ++ lit " = " ++ u ++ crlf) (Ok (w, MOk)) /\
    has_value fs w x (v ++ [92; 13]%N) /\ has_value fs w y (u ++ [13%N]).
Proof. exact cr_not_continued. Qed.
Print Assumptions C27_continuation_refuted.
Example C27_continuation_case : name (lit "CC") /\ name (lit "y") /\ lit "y" <> lit "CC" /\ plain_value (lit "gcc -O2").
Proof. exact continuation_case. Qed.

(** An `else` or `endif` on such a line ends the program, whatever follows. *)
Theorem C27_endif_refuted : forall fs a b x v k rest, ascii_files fs -> plain_condition a -> plain_condition b -> name x -> plain_value v ->
  In k ["else"; "endif"]%string -> asciis rest -> ~ In c_hash rest ->
  reads_to fs (lit "ifeq (" ++ a ++ lit "," ++ b ++ lit ")" ++ nl ++ x ++ lit " = " ++ v ++ crlf ++ lit k ++ crlf ++ rest) Panic.
Proof. exact cr_ends. Qed.
Print Assumptions C27_endif_refuted.
Example C27_endif_case : name (lit "CC") /\ plain_value (lit "gcc -O2") /\ plain_condition (lit "a") /\ plain_condition (lit "b c").
Proof. exact crlf_case. Qed.
