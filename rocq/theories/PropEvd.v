(** Property theorems about evaluated text and spans (C01-C09).
    Texts, well-formedness and provenance are defined in [EvdSpec]. *)
From Coq Require Import String.
From Verif Require Import Base LocModel EvdModel NomModel EvdSpec EvdProofs EvdProofs2 EvdProofs3 EvdExamples.
Open Scope string_scope.
Open Scope list_scope.

(** C01: range slices, take and take_split return exactly the substring. *)
Theorem C01_slices_are_substrings : forall s, wf_span s ->
  (forall a b, a <= b -> b <= length (span_text s) ->
     exists s', slice_range s a b = Ok s' /\ wf_span s' /\
                span_into_string s' = Ok (firstn (b - a) (skipn a (span_text s)))) /\
  (forall a, a <= length (span_text s) ->
     exists s', slice_from s a = Ok s' /\ wf_span s' /\
                span_into_string s' = Ok (skipn a (span_text s))) /\
  (forall b, b <= length (span_text s) ->
     wf_span (slice_to s b) /\ take s b = Ok (slice_to s b) /\
     span_into_string (slice_to s b) = Ok (firstn b (span_text s))) /\
  (forall n, n <= length (span_text s) ->
     exists r p, take_split s n = Ok (r, p) /\ wf_span r /\ wf_span p /\
       span_into_string p = Ok (firstn n (span_text s)) /\
       span_into_string r = Ok (skipn n (span_text s))).
Proof. exact slices_exact. Qed.
Print Assumptions C01_slices_are_substrings.

(** C01: out-of-range requests panic instead of returning wrong text. *)
Theorem C01_out_of_range_panics : forall s n, sp_len s < n ->
  take s n = Panic /\ take_split s n = Panic /\ slice_from s n = Panic.
Proof. exact slices_out_of_range. Qed.
Print Assumptions C01_out_of_range_panics.

(** C01: the span of a block shows the block's text. *)
Theorem C01_whole_block : forall b, wf_block b ->
  wf_span (block_span b) /\ span_text (block_span b) = block_text b.
Proof. exact (fun b H => conj (block_span_wf b H) (block_span_text b H)). Qed.
Print Assumptions C01_whole_block.

(** C01: a reference to a part of a node shows that part; one that begins or ends outside
    the node is refused. *)
Theorem C01_node_slice : forall n off len, wf_node n ->
  (off < node_len n -> off + len <= node_len n -> exists c, new_from_node_slice n off len = Ok c /\
     block_into_string (Blk [] [c]) = Ok (firstn len (skipn off (node_text n))) /\ (0 < len -> wf_cref c)) /\
  (node_len n <= off \/ node_len n < off + len -> new_from_node_slice n off len = Panic).
Proof. exact node_slice. Qed.
Print Assumptions C01_node_slice.
Example C01_node_slice_case : wf_node (NConst (Located Synthetic (lit "asdf"))) /\ 2 + 2 <= node_len (NConst (Located Synthetic (lit "asdf"))).
Proof. repeat constructor. Qed.

Example C01_example : exists s, slice_range (block_span ex_block) 1 6 = Ok s /\
  span_into_string s = Ok (lit "boo b").
Proof. eexists. split; reflexivity. Qed.

(** C02: flattening a block or its span gives its text, and the length is the
    text's length. *)
Theorem C02_into_string : forall b, wf_block b ->
  block_into_string b = Ok (block_text b) /\
  span_into_string (block_span b) = Ok (block_text b) /\
  block_len b = length (block_text b).
Proof. exact into_strings. Qed.
Print Assumptions C02_into_string.

(** C02: simplification never panics, keeps every character together with its
    source location, and keeps the sensitivity. *)
Theorem C02_simplify_preserves : forall b, wf_block b ->
  exists b', block_simplify b = Ok b' /\ wf_block b' /\ block_marks b' = block_marks b /\ b_sens b' = b_sens b.
Proof. exact block_simplify_ok. Qed.
Print Assumptions C02_simplify_preserves.

(** C02: [Block::new] accepts empty pieces too; it drops them. *)
Theorem C02_block_new_preserves : forall sens cs, Forall wf_cref0 cs ->
  exists b, block_new sens cs = Ok b /\ wf_block b /\ block_marks b = crefs_marks cs /\
            b_sens b = sens /\ block_len b = sum_len cs.
Proof. exact block_new_ok. Qed.
Print Assumptions C02_block_new_preserves.

(** C02: a block made from a span shows the span's characters with the same
    locations and (unless empty) the sensitivity of the span's parent. *)
Theorem C02_to_new_block_preserves : forall s, wf_span s ->
  exists b, to_new_block s = Ok b /\ wf_block b /\ block_marks b = span_marks s /\
            (0 < sp_len s -> b_sens b = b_sens (sp_parent s)).
Proof. exact to_new_block_ok. Qed.
Print Assumptions C02_to_new_block_preserves.

(** C02: appending a span to a block. *)
Theorem C02_push_all_contents_appends : forall b s, wf_block b -> wf_span s -> wf_block (sp_parent s) ->
  exists b', push_all_contents b s = Ok b' /\ wf_block b' /\
             block_marks b' = block_marks b ++ span_marks s /\
             (0 < sp_len s -> b_sens b' = set_union (b_sens b) (b_sens (sp_parent s))) /\
             (sp_len s = 0 -> b' = b).
Proof. exact push_all_contents_ok. Qed.
Print Assumptions C02_push_all_contents_appends.

(** The characters of the marks are the text. *)
Theorem C02_marks_are_text : forall b s,
  List.map fst (block_marks b) = block_text b /\ List.map fst (span_marks s) = span_text s.
Proof. exact (fun b s => conj (block_marks_text b) (span_marks_text s)). Qed.
Print Assumptions C02_marks_are_text.

Example C02_example : exists s b, slice_range (block_span ex_block) 1 6 = Ok s /\
  to_new_block s = Ok b /\ block_into_string b = Ok (lit "boo b") /\ b_sens b = [7%N].
Proof. eexists. eexists. repeat split. Qed.

(** C03: first occurrence, or none. *)
Theorem C03_find_substring_first : forall s needle, wf_span s -> asciis needle -> needle <> [] ->
  exists r, find_substring s needle = Ok r /\
    (forall i, r = Some i <->
       (occurs_at needle (span_text s) i /\ forall j, j < i -> ~ occurs_at needle (span_text s) j)) /\
    (r = None <-> forall j, ~ occurs_at needle (span_text s) j).
Proof. exact find_substring_total. Qed.
Print Assumptions C03_find_substring_first.

Example C03_example : find_substring (block_span ex_block) (lit "o b") = Ok (Some 3).
Proof. reflexivity. Qed.

(** C03 fails for non-ASCII text: searching "#" in a span that begins with a
    two-byte character panics. *)
Theorem C03_non_ascii_refuted : exists s, whole_cref (ev_constant (Located Synthetic s)) /\
  find_substring (block_span (Blk [] [ev_constant (Located Synthetic s)])) [c_hash] = Panic.
Proof. exact (ex_intro _ [233; 35]%N (conj (conj eq_refl (conj eq_refl I)) eq_refl)). Qed.
Print Assumptions C03_non_ascii_refuted.

(** C04: prefix comparison. *)
Theorem C04_compare_is_prefix : forall s t, wf_span s -> asciis t -> exists r,
  compare s t = Ok r /\
  (r = CmpOk <-> exists post, span_text s = t ++ post) /\
  (r = CmpIncomplete <-> exists post, post <> [] /\ t = span_text s ++ post) /\
  (r = CmpError <-> ~ (exists post, span_text s = t ++ post) /\ ~ (exists post, t = span_text s ++ post)).
Proof. exact compare_spec. Qed.
Print Assumptions C04_compare_is_prefix.

Theorem C04_compare_no_case_is_prefix : forall s t, wf_span s -> asciis t -> exists r,
  compare_no_case s t = Ok r /\
  let a := List.map ascii_lower (span_text s) in let b := List.map ascii_lower t in
  (r = CmpOk <-> exists post, a = b ++ post) /\
  (r = CmpIncomplete <-> exists post, post <> [] /\ b = a ++ post) /\
  (r = CmpError <-> ~ (exists post, a = b ++ post) /\ ~ (exists post, b = a ++ post)).
Proof. exact compare_no_case_spec. Qed.
Print Assumptions C04_compare_no_case_is_prefix.

Example C04_example : compare (block_span ex_block) (lit "aboo") = Ok CmpOk /\
  compare_no_case (block_span ex_block) (lit "ABoO") = Ok CmpOk /\
  compare (block_span ex_block) (lit "aboo bayzzz") = Ok CmpIncomplete.
Proof. repeat split. Qed.

(** C05: indexed iteration. *)
Theorem C05_indices_enumerate : forall s, wf_span s ->
  span_chars s = (span_text s, false) /\ span_indices s = (enumerate (span_text s), false).
Proof. exact (fun s H => conj (span_chars_ok s H) (span_indices_ok s H)). Qed.
Print Assumptions C05_indices_enumerate.

(** C05: splitting before the first character satisfying a predicate. *)
Theorem C05_split_at_position : forall s p, wf_span s ->
  exists rest pre, split_at_position s p = Ok (rest, pre) /\ wf_span rest /\ wf_span pre /\
    sp_parent rest = sp_parent s /\ sp_parent pre = sp_parent s /\
    split_before p (span_text s) (span_text pre) (span_text rest).
Proof. exact split_at_position_ok. Qed.
Print Assumptions C05_split_at_position.

Theorem C05_split_at_position1 : forall s p, wf_span s ->
  match split_at_position1 s p with
  | Ok (Some (rest, pre)) => wf_span rest /\ wf_span pre /\ span_text pre <> [] /\
      split_before p (span_text s) (span_text pre) (span_text rest)
  | Ok None => split_before p (span_text s) [] (span_text s)
  | _ => False
  end.
Proof. exact split_at_position1_ok. Qed.
Print Assumptions C05_split_at_position1.

(** The specification [split_before] determines the split. *)
Theorem C05_split_before_functional : forall p t a b c d,
  split_before p t a b -> split_before p t c d -> a = c /\ b = d.
Proof. exact split_before_unique. Qed.
Print Assumptions C05_split_before_functional.

(** C06: the segments of a span carry exactly its characters and locations; if
    the iterator panics on the way, those before the panic are a prefix. *)
Theorem C06_segments_cover : forall s, wf_span s ->
  exists l panics, span_segs s = (l, panics) /\
    Forall (fun g => l_str g <> []) l /\
    (panics = false -> segments_marks l = span_marks s) /\
    (panics = true -> exists rest, span_marks s = segments_marks l ++ rest).
Proof. exact segments_complete. Qed.
Print Assumptions C06_segments_cover.

(** C06: the location of a non-empty span is that of its first character. *)
Theorem C06_location_is_first : forall s l, wf_span s -> 0 < sp_len s -> span_location s = Ok l ->
  l = option_map snd (hd_error (span_marks s)).
Proof. exact location_first. Qed.
Print Assumptions C06_location_is_first.

Example C06_example : exists s, slice_range (block_span ex_block) 1 6 = Ok s /\
  span_location s = Ok (Some (TestLocation 1 2)).
Proof. eexists. split; reflexivity. Qed.

(** C07 is false: a block [Concat("a"," ","b")] - what line continuation
    produces - sliced after its first character. *)
Theorem C07_location_panics_refuted : exists b n s, wf_block b /\
  slice_from (block_span b) n = Ok s /\ wf_span s /\ span_location s = Panic.
Proof. exact c07_witness. Qed.
Print Assumptions C07_location_panics_refuted.

(** C07, the exact condition, for spans over trees whose references start at
    offset 0: [segments] panics iff the span's offset is positive and equal to
    the end of one of the segments. *)
Theorem C07_panic_iff_on_boundary : forall s, wf_span s -> Forall off0_cref (sp_contents s) -> 0 < sp_len s ->
  (snd (span_segs s) = true <->
   0 < sp_off s /\ on_boundary (sp_off s) (fst (fold_right sg_app ([], false) (List.map cref_segs (sp_contents s))))).
Proof. exact span_segs_panic. Qed.
Print Assumptions C07_panic_iff_on_boundary.

(** C07, the part that holds: no panic when the span begins at a reference or
    inside a constant.  Missing: spans beginning inside a compound reference
    (false in general, see [C07_location_panics_refuted]), references with
    offsets. *)
Theorem C07_location_no_panic_partial : forall s, wf_span s -> Forall off0_cref (sp_contents s) ->
  sp_off s = 0 \/ (exists l o n cs, sp_contents s = CRef o n (NConst l) :: cs) ->
  snd (span_segs s) = false /\ exists l, span_location s = Ok l.
Proof. exact location_no_panic_start. Qed.
Print Assumptions C07_location_no_panic_partial.

Example C07_example : Forall off0_cref (sp_contents (block_span c07_block)).
Proof. repeat constructor. Qed.

(** C08: what [offset] computes for a suffix: exact within the first piece,
    otherwise it forgets how far into its piece the suffix begins. *)
Theorem C08_offset_partial : forall s n s', wf_span s -> n < sp_len s -> slice_from s n = Ok s' ->
  exists pre, sp_contents s = pre ++ sp_contents s' /\
    offset s s' = Ok (match pre with [] => n | _ => n - sp_off s' end) /\ sp_off s' <= sp_off s + n /\
    (pre <> [] -> sp_off s' <= n).
Proof. exact offset_slice. Qed.
Print Assumptions C08_offset_partial.

(** C08 is false across pieces. *)
Theorem C08_offset_refuted : exists b n s, wf_block b /\
  slice_from (block_span b) n = Ok s /\ n <= block_len b /\ offset (block_span b) s <> Ok n.
Proof. exact c08_witness. Qed.
Print Assumptions C08_offset_refuted.

(** C09: unsliced text of any script is preserved. *)
Theorem C09_unsliced_text_partial : forall sens cs, Forall whole_cref cs ->
  block_into_string (Blk sens cs) = Ok (concat (List.map cref_leaves cs)) /\
  span_into_string (block_span (Blk sens cs)) = Ok (concat (List.map cref_leaves cs)).
Proof. exact whole_block_string. Qed.
Print Assumptions C09_unsliced_text_partial.

Theorem C09_source_text_partial : forall loc s, exists b,
  block_new [] [ev_constant (Located loc s)] = Ok b /\
  block_into_string b = Ok s /\ span_into_string (block_span b) = Ok s.
Proof. exact source_block. Qed.
Print Assumptions C09_source_text_partial.

(** C09 is false for slices: removing the two bytes of "é" from "éxy" also
    loses the "x". *)
Theorem C09_sliced_text_refuted : exists c rest loc s b,
  block_new [] [ev_constant (Located loc (c :: rest))] = Ok b /\
  slice_from (block_span b) (len_utf8 c) = Ok s /\ span_into_string s <> Ok rest.
Proof. exact c09_witness. Qed.
Print Assumptions C09_sliced_text_refuted.
