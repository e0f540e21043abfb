(** Proofs about carriage returns before newlines. *)
From Coq Require Import String.
From Verif Require Import Base LocModel EvdModel AstModel EngineModel EvdSpec DbSpec ParseModel ParseSpec EvalSpec AstParseSpec EngineSpec MakeSpec CrashSpec
  EvdProofs2 WriteSpec WriteProofs WriteProofs7 WriteExamples StopSpec StopProofs2 StopProofs3.
Local Open Scope nat_scope.

Lemma plain_cr : forall v w, plain_value v -> Forall line_char w -> solid_first w -> plain_value (v ++ w ++ [13%N]).
Proof.
  intros v w (A & _ & C) B D. split; [|split].
  - rewrite !Forall_app. split; [exact A|]. split; [exact B|]. constructor; [split; [reflexivity|cbn; lia]|constructor].
  - rewrite app_assoc. apply whole_after; [discriminate|reflexivity].
  - destruct v as [|c v]; [|exact C]. destruct w as [|c w]; [split; discriminate|exact D].
Qed.

(** The carriage return is part of the value. *)
Lemma cr_kept : forall fs x v, ascii_files fs -> name x -> plain_value v ->
  (exists w, reads_to fs (x ++ lit " = " ++ v ++ crlf) (Ok (w, MOk)) /\ has_value fs w x (v ++ [13%N])) /\
  (exists w, reads_to fs (x ++ lit " = " ++ v ++ nl) (Ok (w, MOk)) /\ has_value fs w x v).
Proof.
  intros fs x v Af N V.
  assert (G : forall a, plain_value a -> exists w, reads_to fs (x ++ lit " = " ++ a ++ nl) (Ok (w, MOk)) /\ has_value fs w x a).
  { intros a A. eassert (Do : does_all fs w_start [SAssign x OSet [Txt a]] _) by (econstructor; [apply D_assign, G_set|]; constructor).
    destruct (plainly _ _ _ Do Af (conj (conj N (value_txt _ A)) Logic.I)) as (w & R & _ & Vw & _).
    exists w. unfold show_all in R. cbn [List.map concat show_stmt] in R. rewrite !show_txt, app_nil_r in R. split; [exact R|].
    eapply Vw; [apply set_same|]. constructor. apply says_txt. }
  split; [|apply G; exact V]. destruct (G (v ++ [] ++ [13%N])) as (w & R & H); [apply plain_cr; [exact V|constructor|exact Logic.I]|].
  exists w. cbn [app] in R, H. rewrite <- app_assoc in R. split; [exact R|exact H].
Qed.

(** A backslash before a carriage return does not continue the line. *)
Lemma cr_not_continued : forall fs x v y u, ascii_files fs -> name x -> plain_value v -> name y -> y <> x -> plain_value u ->
  exists w, reads_to fs (x ++ lit " = " ++ v ++ lit "\" ++ crlf ++ y ++ lit " = " ++ u ++ crlf) (Ok (w, MOk)) /\
    has_value fs w x (v ++ [92; 13]%N) /\ has_value fs w y (u ++ [13%N]).
Proof.
  intros fs x v y u Af Nx V Ny D U.
  assert (V' : plain_value (v ++ [92; 13]%N)).
  { apply (plain_cr v [92%N]); [exact V| |split; discriminate]. constructor; [split; [reflexivity|cbn; lia]|constructor]. }
  assert (U' : plain_value (u ++ [13%N])) by (apply (plain_cr u []); [exact U|constructor|exact Logic.I]).
  eassert (Do : does_all fs w_start [SAssign x OSet [Txt (v ++ [92; 13]%N)]; SAssign y OSet [Txt (u ++ [13%N])]] _).
  { econstructor; [apply D_assign, G_set|]. econstructor; [apply D_assign, G_set|]. constructor. }
  destruct (plainly _ _ _ Do Af (conj (conj Nx (value_txt _ V')) (conj (conj Ny (value_txt _ U')) Logic.I))) as (w & R & _ & Vw & _).
  exists w. unfold show_all in R. cbn [List.map concat show_stmt] in R. rewrite !show_txt, app_nil_r in R. rewrite <- !app_assoc in R. split; [exact R|]. split.
  - eapply Vw; [|constructor; apply says_txt]. cbn. rewrite set_other by exact D. apply set_same.
  - eapply Vw; [apply set_same|]. constructor. apply says_txt.
Qed.

(** `else` and `endif` with a carriage return end the program. *)
Lemma cr_ends : forall fs a b x v k rest, ascii_files fs -> plain_condition a -> plain_condition b -> name x -> plain_value v -> In k ["else"; "endif"]%string ->
  asciis rest -> ~ In c_hash rest ->
  reads_to fs (lit "ifeq (" ++ a ++ lit "," ++ b ++ lit ")" ++ nl ++ x ++ lit " = " ++ v ++ crlf ++ lit k ++ crlf ++ rest) Panic.
Proof.
  intros fs a b x v k rest Af A B N V K Ar Nh.
  assert (V' : plain_value (v ++ [13%N])) by (apply (plain_cr v []); [exact V|constructor|exact Logic.I]).
  set (live := holds (Parens false) a b).
  assert (Ac : exists s1, acts_all fs live (heard w_start live) [SAssign x OSet [Txt (v ++ [13%N])]] s1).
  { destruct live; eexists; (econstructor; [|constructor]).
    - apply A_assign; [reflexivity|apply G_set].
    - apply A_ignored; [reflexivity|apply I_assign]. }
  destruct Ac as (s1 & Ac).
  assert (Re : reaches fs true w_start Top (if_text (Parens false) [Txt a] [Txt b] ++ show_all [SAssign x OSet [Txt (v ++ [13%N])]] ++ []) s1 InThen).
  { eapply RE_then; [split; apply condition_txt; assumption|apply says_txt|apply says_txt|]. cbn [andb]. fold live.
    eapply RE_stmts; [split; [split; [exact N|apply value_txt; exact V']|exact Logic.I]|exact Ac|apply RE_here]. }
  pose proof (file_stops_panics fs _ Af (FS_plain fs w_start _ s1 InThen (lit k ++ [13%N]) rest Re
    (SP_extra fs s1 InThen k (lit k) [13%N] K ltac:(destruct K as [<-|[<-|[]]]; reflexivity) ltac:(constructor; [right; cbn; tauto|constructor]) ltac:(intros Q; inversion Q; discriminate)) Ar Nh)) as P.
  unfold show_all in P. cbn [List.map concat show_stmt if_text] in P. rewrite !show_txt, !app_nil_r, <- !app_assoc in P. exact P.
Qed.

Lemma crlf_case : name (lit "CC") /\ plain_value (lit "gcc -O2") /\ plain_condition (lit "a") /\ plain_condition (lit "b c").
Proof. split; [is_name|]. split; [is_plain|]. split; (apply plain_condition_by; [reflexivity|discriminate]). Qed.

Lemma continuation_case : name (lit "CC") /\ name (lit "y") /\ lit "y" <> lit "CC" /\ plain_value (lit "gcc -O2").
Proof. split; [is_name|]. split; [is_name|]. split; [discriminate|is_plain]. Qed.
