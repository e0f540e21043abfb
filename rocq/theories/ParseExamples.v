(** Witnesses used by [PropParse]. *)
From Coq Require Import String.
From Verif Require Import Base LocModel EvdModel NomModel AstModel ParseModel AstParseModel EngineModel ModelTests EvdSpec
  ParseSpec ParseProofs5.
Open Scope string_scope.
Open Scope list_scope.

Lemma c26_line_ends_at_newline_witness : exists s l n t, wf_span s /\ span_text s = l ++ n :: t /\
  ~ In c_nl l /\ n = c_nl /\
  forall r p reason, makefile_grab_line s = Ok (POk r (p, reason)) -> span_text p <> l.
Proof.
  exists (block_span (text_block (lit (esc "a~b # c")))), (lit "a"), c_nl, (lit "b # c").
  split; [apply text_span_wf; [discriminate|reflexivity]|]. split; [vm_compute; reflexivity|].
  split; [vm_compute; intuition discriminate|]. split; [reflexivity|].
  intros r p reason E. vm_compute in E. injection E as <- <- <-. vm_compute. discriminate.
Qed.

Lemma c27_crlf_like_lf_witness : exists s1 s2 r1 b1 r2 b2, wf_span s1 /\ wf_span s2 /\
  span_text s1 = lit "x = a" ++ [c_cr; c_nl] /\ span_text s2 = lit "x = a" ++ [c_nl] /\
  makefile_line s1 GNU true = Ok (POk r1 b1) /\ makefile_line s2 GNU true = Ok (POk r2 b2) /\
  block_text b1 <> block_text b2.
Proof.
  exists (block_span (text_block (lit "x = a" ++ [c_cr; c_nl]))), (block_span (text_block (lit "x = a" ++ [c_nl]))).
  do 4 eexists.
  split; [apply text_span_wf; [discriminate|reflexivity]|]. split; [apply text_span_wf; [discriminate|reflexivity]|].
  split; [vm_compute; reflexivity|]. split; [vm_compute; reflexivity|]. split; [vm_compute; reflexivity|].
  split; [vm_compute; reflexivity|]. vm_compute. discriminate.
Qed.

Lemma c41_drive_colon_witness : exists s pre post b r, wf_span s /\
  rule_colon fst (drive fst) (span_marks s) pre (Some post) /\
  find_non_drivespec_colon s = Ok (b, r) /\ block_marks b <> pre.
Proof.
  set (s := block_span (text_block (lit "x c:\d: e"))).
  exists s, (firstn 6 (span_marks s)), (skipn 7 (span_marks s)). do 2 eexists.
  split; [apply text_span_wf; [discriminate|reflexivity]|]. split.
  - change (firstn 6 (span_marks s)) with (firstn 3 (span_marks s) ++ nth 3 (span_marks s) (0%N, Synthetic) :: firstn 2 (skipn 4 (span_marks s))).
    apply (RC_drive _ _ _ (firstn 3 (span_marks s)) (nth 3 (span_marks s) (0%N, Synthetic)) (skipn 4 (span_marks s))); [vm_compute; reflexivity|vm_compute; reflexivity|].
    eapply (RC_found _ _ _ _ (nth 6 (span_marks s) (0%N, Synthetic))); vm_compute; reflexivity.
  - split; [vm_compute; reflexivity|]. vm_compute. discriminate.
Qed.

Lemma c47_comment_ends_with_its_line_witness : exists s l t r, wf_span s /\
  span_text s = c_hash :: l ++ c_nl :: t /\ ~ In c_nl l /\ ~ In c_bslash l /\
  parse_comment s = Ok (POk r tt) /\ span_text r <> t.
Proof.
  exists (block_span (text_block (lit (esc "# one~x = 1~# two~y = 2")))), (lit " one"), (lit (esc "x = 1~# two~y = 2")).
  eexists. split; [apply text_span_wf; [discriminate|reflexivity]|]. split; [vm_compute; reflexivity|].
  split; [vm_compute; intuition discriminate|]. split; [vm_compute; intuition discriminate|].
  split; [vm_compute; reflexivity|]. vm_compute. discriminate.
Qed.
