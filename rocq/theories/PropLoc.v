(** Property theorems about source locations (C10, C11).
    [same_source], [earlier] and [moved] are defined in [LocSpec]. *)
From Coq Require Import String.
From Verif Require Import Base LocModel LocSpec LocProofs.
Open Scope string_scope.
Open Scope list_scope.

(** C10: two locations are comparable exactly if they count in the same place. *)
Theorem C10_comparable_iff_same_source : forall a b,
  (exists o, location_partial_cmp a b = Some o) <-> same_source a b.
Proof. exact cmp_comparable. Qed.
Print Assumptions C10_comparable_iff_same_source.

(** C10: "less" is the lexicographic order by line and column within a source. *)
Theorem C10_less_is_lexicographic : forall a b,
  location_partial_cmp a b = Some Lt <-> same_source a b /\ earlier a b.
Proof. exact cmp_lt. Qed.
Print Assumptions C10_less_is_lexicographic.

(** C10: equal means identical; swapping the arguments swaps the answer. *)
Theorem C10_equal_iff_identical : forall a b, location_partial_cmp a b = Some Eq <-> a = b.
Proof. exact cmp_eq. Qed.
Print Assumptions C10_equal_iff_identical.

Theorem C10_antisymmetric : forall a b, location_partial_cmp b a = option_map CompOpp (location_partial_cmp a b).
Proof. exact cmp_flip. Qed.
Print Assumptions C10_antisymmetric.

Theorem C10_transitive : forall a b c, location_partial_cmp a b = Some Lt -> location_partial_cmp b c = Some Lt ->
  location_partial_cmp a c = Some Lt.
Proof. exact cmp_trans. Qed.
Print Assumptions C10_transitive.

Example C10_example : location_partial_cmp (SourceLocation 3 9 0) (SourceLocation 4 1 0) = Some Lt /\
  location_partial_cmp (SourceLocation 3 9 0) (SourceLocation 4 1 1) = None.
Proof. split; reflexivity. Qed.

(** C10 fails for located text: two different located strings can compare as
    equal (the order looks at locations only, `==` also at the contents). *)
Theorem C10_located_order_refuted : exists a b, located_partial_cmp a b = Some Eq /\ a <> b.
Proof. exact located_order_witness. Qed.
Print Assumptions C10_located_order_refuted.

(** C11: a slice of located text, for text of any script.  It succeeds exactly
    when the cuts are in range and on character boundaries, keeps the right
    characters, and its location is the old one moved over the skipped text. *)
Theorem C11_slice_location : forall l a n l',
  located_slice l a n = Ok l' <->
  exists skipped rest, l_str l = skipped ++ l_str l' ++ rest /\ blen skipped = a /\ blen (l_str l') = n /\
    a < blen (l_str l) /\ l_loc l' = moved (l_loc l) skipped.
Proof. exact located_slice_spec. Qed.
Print Assumptions C11_slice_location.

(** C11: the new location is never smaller. *)
Theorem C11_slice_not_earlier : forall l a n l', located_slice l a n = Ok l' ->
  located_partial_cmp l l' = Some Eq \/ located_partial_cmp l l' = Some Lt.
Proof. exact located_slice_later. Qed.
Print Assumptions C11_slice_not_earlier.

Example C11_example : moved (SourceLocation 5 7 0) (lit "ab") = SourceLocation 5 9 0 /\
  moved (SourceLocation 5 7 0) [97; c_nl; 98; c_nl; 99; 100]%N = SourceLocation 7 3 0 /\
  located_slice (Located (SourceLocation 5 7 0) [97; c_nl; 98; 99]%N) 3 1 = Ok (Located (SourceLocation 6 2 0) [99%N]).
Proof. repeat split. Qed.
