(** C09 for all texts: what slices of text of any script show. *)
From Verif Require Import Base LocModel EvdModel NomModel EvdSpec CutSpec SliceProofs.

(** A slice from [a] to [e], in bytes, of a source text leaves out [a] characters and not bytes, and
    then reads [e - a] bytes. *)
Theorem C09_slices_partial : forall loc s b a e, block_new [] [ev_constant (Located loc s)] = Ok b -> a <= e -> e <= blen s ->
  exists sp, slice_range (block_span b) a e = Ok sp /\ read_bytes (skipn a s) (e - a) (span_into_string sp).
Proof. exact slice_shown. Qed.
Print Assumptions C09_slices_partial.

(** What is left of a text after its first characters lacks one more character for each byte that
    those have more than one. *)
Theorem C09_suffix_partial : forall loc pre rest b, block_new [] [ev_constant (Located loc (pre ++ rest))] = Ok b ->
  exists sp, slice_from (block_span b) (blen pre) = Ok sp /\ span_into_string sp = Ok (skipn (blen pre - length pre) rest).
Proof. exact from_shown. Qed.
Print Assumptions C09_suffix_partial.

(** So the text that is left is right exactly if what was sliced off is ASCII. *)
Theorem C09_suffix_iff_ascii : forall loc pre rest b sp, block_new [] [ev_constant (Located loc (pre ++ rest))] = Ok b -> rest <> [] ->
  slice_from (block_span b) (blen pre) = Ok sp -> (span_into_string sp = Ok rest <-> asciis pre).
Proof. exact from_right. Qed.
Print Assumptions C09_suffix_iff_ascii.

(** "é", an euro sign and "abc": five characters, eight bytes. *)
Example C09_slices_case : exists b sp, block_new [] [ev_constant (Located Synthetic [233; 8364; 97; 98; 99]%N)] = Ok b /\ blen [233; 8364; 97; 98; 99]%N = 8 /\
  slice_from (block_span b) 2 = Ok sp /\ span_into_string sp = Ok [97; 98; 99]%N /\ [8364; 97; 98; 99]%N <> [] /\
  exists sp', slice_range (block_span b) 1 2 = Ok sp' /\ span_into_string sp' = Panic.
Proof. eexists. eexists. split; [reflexivity|]. split; [reflexivity|]. split; [reflexivity|]. split; [reflexivity|]. split; [discriminate|]. eexists. split; reflexivity. Qed.
