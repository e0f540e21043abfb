(** Concrete spans used as witnesses by [PropCut]. *)
From Coq Require Import String.
From Verif Require Import Base LocModel EvdModel EvdSpec NomModel EvdProofs EvdProofs2 EvdExamples CutSpec LocateProofs.
Local Open Scope string_scope.
Local Open Scope list_scope.

(** "abcde" in two pieces, the value of a variable, of which a reference shows "bcd" or "cde". *)
Definition cut_at (off : nat) : block := Blk [] [CRef off 3 (NVar block_empty (Blk [] [ex_const "ab"; ex_const "cde"]))].
Lemma cut_wf : forall off, off <= 2 -> wf_span (block_span (cut_at off)).
Proof.
  intros off H. apply block_span_wf. constructor; [|constructor]. split; [lia|]. split; [match goal with |- _ <= ?x => change x with 5 end; lia|]. cbn. repeat split; try lia; repeat constructor.
Qed.
Lemma cut_case : wf_span (block_span (cut_at 1)) /\ wf_span (block_span (cut_at 2)) /\
  stuck (block_span (cut_at 2)) 0 /\ ~ stuck (block_span (cut_at 1)) 2 /\
  span_location (block_span (cut_at 2)) = Panic /\ span_into_string (block_span (cut_at 1)) = Ok (lit "bcd").
Proof.
  split; [apply cut_wf; lia|]. split; [apply cut_wf; lia|]. split; [|split; [|split; reflexivity]].
  - right. eexists []. do 2 eexists. exists 0. split; [reflexivity|]. split; [apply Nat.ltb_lt; reflexivity|]. split; [apply Nat.leb_le; reflexivity|]. apply BL_cut. split; [lia|reflexivity].
  - intros Q. apply (segments_panic _ (cut_wf 1 ltac:(lia))) in Q; [discriminate Q|apply Nat.ltb_lt; reflexivity].
Qed.
Lemma flat_case : exists s, slice_from (block_span (Blk [] [ex_const "ab"; ex_const "cde"])) 2 = Ok s /\ wf_span s /\ Forall flat (sp_contents s).
Proof.
  eexists. split; [reflexivity|]. split.
  - unfold wf_span. cbn. split; [repeat constructor; cbn; try lia; repeat constructor|]. split; [eexists [_]; reflexivity|]. split; [apply Nat.leb_le; reflexivity|]. intros _. do 2 eexists. split; [reflexivity|]. apply Nat.ltb_lt; reflexivity.
  - repeat constructor; unfold flat; repeat eexists.
Qed.
