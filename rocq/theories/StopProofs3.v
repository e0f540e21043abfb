(** Proofs about makefiles that end the program: consequences. *)
From Coq Require Import String.
From Verif Require Import Base LocModel EvdModel AstModel EngineModel EvdSpec DbSpec ParseModel ParseSpec EvalSpec AstParseSpec EngineSpec MakeSpec CrashSpec
  EvdProofs2 WriteSpec WriteProofs7 StopSpec StopProofs2.
Local Open Scope nat_scope.

(** * Consequences *)
Lemma line_after : forall fs ss s l rest, ascii_files fs -> every well_formed ss -> acts_all fs true w_start ss s -> stops fs s Top l -> asciis rest -> ~ In c_hash rest ->
  reads_to fs (show_all ss ++ l ++ nl ++ rest) Panic.
Proof.
  intros fs ss s l rest Af W A St Ar Nh. apply (file_stops_panics fs _ Af). eapply FS_plain; [|exact St|exact Ar|exact Nh].
  rewrite <- (app_nil_r (show_all ss)). eapply RE_stmts; [exact W|exact A|apply RE_here].
Qed.
Lemma ifdef_after : forall fs ss s k r rest, ascii_files fs -> every well_formed ss -> acts_all fs true w_start ss s -> In k ["ifdef"; "ifndef"]%string -> line_rest r ->
  asciis rest -> ~ In c_hash rest -> reads_to fs (show_all ss ++ (lit k ++ r) ++ nl ++ rest) Panic.
Proof.
  intros fs ss s k r rest Af W A K R Ar Nh. eapply line_after; eauto. apply (SP_ifdef fs s Top k); auto.
  destruct K as [<-|[<-|[]]]; reflexivity.
Qed.
Lemma unclosed_after_statements : forall fs ss s x o r rest, ascii_files fs -> every well_formed ss -> acts_all fs true w_start ss s -> w_deaf s = false ->
  name x -> anything r -> stays_open r -> asciis rest -> ~ In c_hash rest ->
  reads_to fs (show_all ss ++ (x ++ show_op o ++ lit "$(" ++ r) ++ nl ++ rest) Panic.
Proof.
  intros fs ss s x o r rest FS F A D N An O Ar Nr. eapply line_after; eauto.
  apply (SP_unclosed fs s Top x o [] r); auto; [constructor|exact Logic.I].
Qed.
Lemma unclosed_rule_after : forall fs ss s ts r rest, ascii_files fs -> every well_formed ss -> acts_all fs true w_start ss s -> w_deaf s = false ->
  ts <> [] -> Forall name ts -> anything r -> ~ In equals r -> ~ In semicolon r -> stays_open r -> asciis rest -> ~ In c_hash rest ->
  reads_to fs (show_all ss ++ (join c_space ts ++ lit ": $(" ++ r) ++ nl ++ rest) Panic.
Proof.
  intros fs ss s ts r rest FS F A D NE N An Nq Ns O Ar Nr. eapply line_after; eauto.
  apply (SP_unclosed_dependencies fs s Top ts false [] r); auto; [constructor|].
  intros k u I E. unfold reserved in I. cbn in I. repeat (destruct I as [<-|I]; [discriminate E|]). destruct I.
Qed.
Lemma unmatched_after : forall fs ss s k rest, ascii_files fs -> every well_formed ss -> acts_all fs true w_start ss s -> In k ["else"; "endif"]%string ->
  asciis rest -> ~ In c_hash rest -> reads_to fs (show_all ss ++ lit k ++ nl ++ rest) Panic.
Proof.
  intros fs ss s k rest Af W A K Ar Nh. eapply line_after; eauto. rewrite <- (app_nil_r (lit k)).
  destruct K as [<-|[<-|[]]]; [apply SP_else|apply SP_endif]; try reflexivity; try constructor. discriminate.
Qed.
Lemma missing_after : forall fs ss s n e rest, ascii_files fs -> every well_formed ss -> acts_all fs true w_start ss s -> w_deaf s = false ->
  name n -> fs n = FOpenError e -> asciis rest -> ~ In c_hash rest -> reads_to fs (show_all ss ++ (lit "include " ++ n) ++ nl ++ rest) Panic.
Proof.
  intros fs ss s n e rest Af W A D Nn F Ar Nh. eapply line_after; eauto. rewrite <- (show_txt n).
  eapply (SP_include fs s Top false [Txt n] n); [exact D| |apply says_txt| |].
  - apply made_txt. destruct Nn as (_ & Fn & _). eapply Forall_impl; [|exact Fn]. intros c Wc. left. exact Wc.
  - intros c I. destruct Nn as (_ & Fn & _). rewrite Forall_forall in Fn. apply Fn in I. unfold word_char in I. cbn. lia.
  - replace (words n) with [n] by (symmetry; apply (words_join [n]); constructor; [exact Nn|constructor]). eapply IS_missing. exact F.
Qed.
