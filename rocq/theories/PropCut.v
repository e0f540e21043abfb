(** C07 for all trees: when [location] and [segments] panic. *)
From Verif Require Import Base LocModel EvdModel EvdSpec NomModel EvdExamples CutSpec LocateProofs CutExamples.
From Coq Require Import String.
Local Open Scope string_scope.
Local Open Scope list_scope.

(** The location of a span that is not empty panics exactly if the span, or a reference that is read
    on the way to its first character, begins in the middle of a text and where a piece of it begins. *)
Theorem C07_location_panics_iff : forall s, wf_span s -> 0 < sp_len s -> (span_location s = Panic <-> stuck s 0).
Proof. exact location_panic. Qed.
Print Assumptions C07_location_panics_iff.

(** The segments panic exactly if this happens on the way to the last character. *)
Theorem C07_segments_panic_iff : forall s, wf_span s -> 0 < sp_len s -> (snd (span_segs s) = true <-> stuck s (sp_len s - 1)).
Proof. exact segments_panic. Qed.
Print Assumptions C07_segments_panic_iff.

(** Text without references never panics, wherever it is cut. *)
Theorem C07_flat_partial : forall s, wf_span s -> Forall flat (sp_contents s) -> snd (span_segs s) = false /\ exists l, span_location s = Ok l.
Proof. exact flat_never. Qed.
Print Assumptions C07_flat_partial.

Example C07_cut_case : wf_span (block_span (cut_at 1)) /\ wf_span (block_span (cut_at 2)) /\
  stuck (block_span (cut_at 2)) 0 /\ ~ stuck (block_span (cut_at 1)) 2 /\
  span_location (block_span (cut_at 2)) = Panic /\ span_into_string (block_span (cut_at 1)) = Ok (lit "bcd").
Proof. exact cut_case. Qed.
Example C07_flat_case : exists s, slice_from (block_span (Blk [] [ex_const "ab"; ex_const "cde"])) 2 = Ok s /\ wf_span s /\ Forall flat (sp_contents s).
Proof. exact flat_case. Qed.
