(** Concrete blocks and spans used as witnesses by [PropEvd]. *)
From Coq Require Import String.
From Verif Require Import Base LocModel EvdModel NomModel EvdSpec EvdProofs EvdProofs2 EvdProofs3.
Open Scope string_scope.
Open Scope list_scope.

(** A block in three pieces, the middle one the value of a variable, used to
    show that the hypotheses below are met by non-trivial trees. *)
Definition ex_const (s : string) : cref := ev_constant (Located (TestLocation 1 1) (lit s)).
Definition ex_value : block := Blk [7%N] [ex_const "foo"; ex_const " bar"].
Definition ex_block : block :=
  Blk [7%N] [ex_const "ab"; CRef 1 5 (NVar (Blk [] [ex_const "x"]) ex_value); ex_const "yz"].

Example ex_block_wf : wf_block ex_block.
Proof.
  repeat constructor; cbn; try lia; repeat constructor.
Qed.
Example ex_block_text : block_text ex_block = lit "aboo bayz".
Proof. reflexivity. Qed.

Definition c07_block : block :=
  Blk [] [ev_concat (Blk [] [ex_const "a"; cr_space; ex_const "b"])].

Lemma c07_wf : wf_block c07_block.
Proof. repeat constructor; cbn; try lia; repeat constructor. Qed.

Lemma c07_witness : exists b n s, wf_block b /\
  slice_from (block_span b) n = Ok s /\ wf_span s /\ span_location s = Panic.
Proof.
  exists c07_block, 1. destruct (slice_from_ok (block_span c07_block) 1) as (s & E & W & _).
  - apply block_span_wf, c07_wf.
  - vm_compute; lia.
  - exists s. split; [apply c07_wf|]. split; [exact E|]. split; [exact W|].
    vm_compute in E. injection E as <-. reflexivity.
Qed.

Lemma c08_witness : exists b n s, wf_block b /\
  slice_from (block_span b) n = Ok s /\ n <= block_len b /\ offset (block_span b) s <> Ok n.
Proof.
  exists ex_block, 3. eexists. split; [apply ex_block_wf|]. split; [reflexivity|].
  split; [vm_compute; lia|]. vm_compute. discriminate.
Qed.

Lemma c09_witness : exists c rest loc s b,
  block_new [] [ev_constant (Located loc (c :: rest))] = Ok b /\
  slice_from (block_span b) (len_utf8 c) = Ok s /\ span_into_string s <> Ok rest.
Proof.
  exists 233%N, [120; 121]%N, Synthetic. eexists. eexists. split; [reflexivity|].
  split; [reflexivity|]. vm_compute. discriminate.
Qed.
