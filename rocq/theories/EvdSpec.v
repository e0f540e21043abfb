(** Specification vocabulary for evaluated text: what text a tree shows, and
    which trees are well-formed.  Plain structural recursion, no iterators. *)
From Verif Require Import Base LocModel EvdModel.

(** The text of a node: a constant shows its string, every other node shows the
    concatenation of the pieces of its block; a reference shows [len] characters
    of its node starting at [off]. *)
Fixpoint node_text (n : node) : str :=
  match n with
  | NConst s => l_str s
  | NConcat v | NVar _ v | NSubst _ _ _ v | NEval v =>
      match v with Blk _ cs => concat (List.map cref_text cs) end
  end
with cref_text (c : cref) : str :=
  match c with CRef off len n => firstn len (skipn off (node_text n)) end.

Definition crefs_text (cs : list cref) : str := concat (List.map cref_text cs).
Definition block_text (b : block) : str := crefs_text (b_content b).

(** The text of a span: [sp_len] characters from [sp_off] of its pieces. *)
Definition span_text (s : span) : str :=
  firstn (sp_len s) (skipn (sp_off s) (crefs_text (sp_contents s))).

(** Well-formed ASCII trees: constants are ASCII, references are non-empty and
    stay inside their node. *)
Fixpoint wf_node (n : node) : Prop :=
  match n with
  | NConst s => asciis (l_str s)
  | NConcat v | NVar _ v | NSubst _ _ _ v | NEval v =>
      match v with Blk _ cs => fold_right (fun c P => wf_cref c /\ P) True cs end
  end
with wf_cref (c : cref) : Prop :=
  match c with
  | CRef off len n => 0 < len /\ off + len <= node_len n /\ wf_node n
  end.

Definition wf_block (b : block) : Prop := Forall wf_cref (b_content b).

(** The same, but the references at the top may be empty (blocks built by
    [push_all_contents] and not simplified). *)
Definition wf_cref_w (c : cref) : Prop :=
  match c with CRef off len n => off + len <= node_len n /\ wf_node n end.
Definition wf_block_w (b : block) : Prop := Forall wf_cref_w (b_content b).

(** A well-formed span: its contents are the tail of a well-formed parent, it
    ends inside them, and if it is not empty it begins inside the first one. *)
Definition wf_span (s : span) : Prop :=
  wf_block_w (sp_parent s) /\
  (exists pre, b_content (sp_parent s) = pre ++ sp_contents s) /\
  sp_off s + sp_len s <= sum_len (sp_contents s) /\
  (0 < sp_len s -> exists c cs, sp_contents s = c :: cs /\ sp_off s < c_len c).

(** Occurrence of a needle at a position of a text. *)
Definition occurs_at (needle text : str) (i : nat) : Prop :=
  exists post, i <= length text /\ skipn i text = needle ++ post.

(** The characters of a text with their positions. *)
Definition enumerate (text : str) : list (nat * char) :=
  combine (seq 0 (length text)) text.

(** Provenance: every character of a tree with the source location it came
    from.  The [k]-th character of a located string sits [k] steps after the
    string's location. *)
Definition step_location (l : location) (c : char) : location :=
  if (c =? c_nl)%N then advance_line l else advance_character l.

Fixpoint mark (loc : location) (s : str) : list (char * location) :=
  match s with
  | [] => []
  | c :: s' => (c, loc) :: mark (step_location loc c) s'
  end.

Definition located_marks (l : located) : list (char * location) := mark (l_loc l) (l_str l).

Fixpoint node_marks (n : node) : list (char * location) :=
  match n with
  | NConst s => located_marks s
  | NConcat v | NVar _ v | NSubst _ _ _ v | NEval v =>
      match v with Blk _ cs => concat (List.map cref_marks cs) end
  end
with cref_marks (c : cref) : list (char * location) :=
  match c with CRef off len n => firstn len (skipn off (node_marks n)) end.

Definition crefs_marks (cs : list cref) : list (char * location) := concat (List.map cref_marks cs).
Definition block_marks (b : block) := crefs_marks (b_content b).
Definition span_marks (s : span) : list (char * location) :=
  firstn (sp_len s) (skipn (sp_off s) (crefs_marks (sp_contents s))).

(** All characters shown by a list of segments, with locations. *)
Definition segments_marks (l : list located) : list (char * location) :=
  concat (List.map located_marks l).

(** [split_before p text pre post]: [pre] is the longest prefix of [text] free of
    characters satisfying [p], and [post] is what follows. *)
Definition split_before (p : char -> bool) (text pre post : str) : Prop :=
  text = pre ++ post /\ Forall (fun c => p c = false) pre /\
  match post with [] => True | c :: _ => p c = true end.

(** Lower case of an ASCII character. *)
Definition ascii_lower (c : char) : char := if ((65 <=? c) && (c <=? 90))%N then (c + 32)%N else c.

(** Trees in which every reference shows its whole node (no slicing), with
    arbitrary Unicode text. *)
Fixpoint whole_node (n : node) : Prop :=
  match n with
  | NConst s => True
  | NConcat v | NVar _ v | NSubst _ _ _ v | NEval v =>
      match v with Blk _ cs => fold_right (fun c P => whole_cref c /\ P) True cs end
  end
with whole_cref (c : cref) : Prop :=
  match c with CRef off len n => off = 0 /\ len = node_len n /\ whole_node n end.

(** The concatenation of the constants of a tree, left to right. *)
Fixpoint node_leaves (n : node) : str :=
  match n with
  | NConst s => l_str s
  | NConcat v | NVar _ v | NSubst _ _ _ v | NEval v =>
      match v with Blk _ cs => concat (List.map cref_leaves cs) end
  end
with cref_leaves (c : cref) : str := match c with CRef _ _ n => node_leaves n end.
