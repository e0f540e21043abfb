(** Where trees are cut into pieces, and which pieces cannot be reached (C07).  Plain structural
    recursion, no iterators. *)
From Verif Require Import Base LocModel EvdModel EvdSpec.

(** For each character of a tree, whether a piece of text begins there: constants are one piece, and
    so is what a reference shows of a piece. *)
Definition flag_first (l : list bool) : list bool := match l with [] => [] | _ :: l' => true :: l' end.
Fixpoint node_starts (n : node) : list bool :=
  match n with
  | NConst s => flag_first (repeat false (List.length (l_str s)))
  | NConcat v | NVar _ v | NSubst _ _ _ v | NEval v => match v with Blk _ cs => concat (List.map cref_starts cs) end
  end
with cref_starts (c : cref) : list bool :=
  match c with CRef off len n => flag_first (firstn len (skipn off (node_starts n))) end.
Definition crefs_starts (cs : list cref) : list bool := concat (List.map cref_starts cs).

(** Something is taken from the middle of a text, and begins where one of its pieces begins. *)
Definition bad_cut (off : nat) (starts : list bool) : Prop := 0 < off /\ nth_error starts off = Some true.

(** Reading the pieces of a node, or of a reference, up to the one with the character at [p] comes
    upon a bad cut. *)
Inductive blocked : node -> nat -> Prop :=
| BL_in : forall n v pre c post q p, node_block n = Some v -> b_content v = pre ++ c :: post ->
    q < c_len c -> sum_len pre + q <= p -> blocked_ref c q -> blocked n p
with blocked_ref : cref -> nat -> Prop :=
| BL_cut : forall off len n q, bad_cut off (node_starts n) -> blocked_ref (CRef off len n) q
| BL_deep : forall off len n q, blocked n (off + q) -> blocked_ref (CRef off len n) q.

(** The same for a span, and the character at [p] of it. *)
Definition stuck (s : span) (p : nat) : Prop :=
  bad_cut (sp_off s) (crefs_starts (sp_contents s)) \/
  exists pre c post q, sp_contents s = pre ++ c :: post /\ q < c_len c /\ sum_len pre + q <= sp_off s + p /\ blocked_ref c q.

(** Text that is not in references. *)
Definition flat (c : cref) : Prop := exists off len s, c = CRef off len (NConst s).

(** Reading [n] bytes of a text, character by character (C09): all of the text if it is shorter, and a
    panic if they end inside a character. *)
Inductive read_bytes : str -> nat -> res str -> Prop :=
| RB_exact : forall p r, read_bytes (p ++ r) (blen p) (Ok p)
| RB_short : forall p n, blen p < n -> read_bytes p n (Ok p)
| RB_inside : forall p c r n, blen p < n -> n < blen p + len_utf8 c -> read_bytes (p ++ c :: r) n Panic.
