(** Concrete cases for the theorems about the words of a rule line. *)
From Coq Require Import String.
From Verif Require Import Base LocModel EvdModel ParseModel AstModel EngineModel ModelTests EvdSpec ParseSpec EvalSpec AstParseSpec EngineSpec MakeSpec
  EvdProofs EvdProofs2 EvdProofs3 ParseProofs ParseProofs5 AstParseProofs EngineExamples WordSpec WordProofs.
Open Scope string_scope.
Open Scope list_scope.

(** The first word of a text, by the specification. *)
Definition first_word (t : string) (w rest : string) (e : mword_end) : Prop :=
  exists w' rest', cuts (lstrip fst (file_text 0 (lit t))) w' rest' e /\ chars w' = lit w /\ chars rest' = lit rest.

Lemma by_scan : forall t w rest e, lit t <> [] -> asciib (lit t) = true ->
  (match next_mword (block_span (text_block (lit t))) with
   | Ok (POk r (cap, e')) => Ok (chars (span_marks cap), chars (span_marks r), e')
   | _ => Panic end) = Ok (lit w, lit rest, e) -> first_word t w rest e.
Proof.
  intros t w rest e N A H. destruct (next_mword_cuts _ (text_span_wf (lit t) N A)) as (r & cap & e' & w' & rest' & E & C & (_ & Mw) & (_ & Mr)).
  rewrite E in H. injection H as H1 H2 <-. rewrite Mw in H1. rewrite Mr in H2.
  rewrite (block_span_marks _ (text_block_wf (lit t) N A)) in C. exists w', rest'. split; [|auto].
  unfold text_block, block_marks in C. cbn in C. rewrite app_nil_r in C. apply asciib_iff in A. rewrite (asciis_blen _ A), firstn_all2 in C; [exact C|].
  rewrite mark_length. lia.
Qed.

Ltac cut := apply by_scan; [discriminate|reflexivity|vm_compute; reflexivity].
Lemma words_cut :
  first_word "  foo.o bar: x" "foo.o" " bar: x" MwStatic /\ first_word "a: x" "a:" " x" MwStatic /\ first_word "c:\dir\a: x" "c:\dir\a:" " x" MwStatic /\
  first_word "$(a b: c)d=e" "$(a b: c)d" "=e" MwStatic /\ first_word "${a ${b}}c" "${a ${b}}c" "" MwVariable /\ first_word "$x$$: y" "$x$$:" " y" MwVariable /\
  first_word "$(a b" "$(a b" "" MwVariable /\ first_word "a\:b\\: c" "a\:b\\:" " c" MwStatic /\ first_word "a?b?=c" "a?b" "?=c" MwStatic /\
  first_word "::= x" "::=" " x" MwVarAssign /\ first_word ":: x" "::" " x" MwDColon.
Proof. repeat (split; [cut|]). cut. Qed.

(** A quoted character at the end is cut off. *)
Lemma quoted_last : first_word "a\:" "a\" ":" MwStatic /\ first_word "a\: b" "a\:" " b" MwStatic.
Proof. split; cut. Qed.

Definition rule_names (w : world) : list (res str) := List.map (fun x => block_into_string (r_target (snd x))) (db_rules (w_db w)).
Lemma quoted_last_rule :
  (exists w, reads_to no_files (mk "a\:~x = y~") (Ok (w, MOk)) /\ rule_names w = [Ok (lit "a ")]) /\
  (exists w, reads_to no_files (mk "a\: ~x = y~") (Ok (w, MOk)) /\ rule_names w = []).
Proof. split; (eexists; split; [by_run|vm_compute; reflexivity]). Qed.
