(** Model of src/evaluated (blocks, content references, nodes, spans). *)
From Verif Require Import Base LocModel.

(** src/evaluated/nodes.rs:10-22 [EvaluatedNode] (with the payload structs of
    152-238), src/evaluated/mod.rs:21-28 [Block],
    src/evaluated/content_reference.rs:7-14 [ContentReference].
    `Arc`/`Box` are dropped; sensitivity sets are lists read as sets. *)
Inductive node : Type :=
| NConst (l : located)
| NConcat (b : block)
| NVar (name value : block)
| NSubst (name key replacement value : block)
| NEval (value : block)
with block : Type :=
| Blk (sensitivity : list N) (content : list cref)
with cref : Type :=
| CRef (offset length : nat) (n : node).

(** Fields of [Block] (src/evaluated/mod.rs:21-28) and [ContentReference]
    (src/evaluated/content_reference.rs:7-14). *)
Definition b_sens (b : block) : list N := let 'Blk s _ := b in s.
Definition b_content (b : block) : list cref := let 'Blk _ c := b in c.
Definition c_off (c : cref) : nat := let 'CRef o _ _ := c in o.
Definition c_len (c : cref) : nat := let 'CRef _ l _ := c in l.
Definition c_node (c : cref) : node := let 'CRef _ _ n := c in n.

(** `.iter().map(|x| x.length).sum()` of src/evaluated/mod.rs:66-68. *)
Definition sum_len (cs : list cref) : nat := list_sum (List.map c_len cs).

(** src/evaluated/mod.rs:66-68 [Block::len]. *)
Definition block_len (b : block) : nat := sum_len (b_content b).

(** src/evaluated/mod.rs:30-38 [EMPTY_BLOCK], [Block::empty]. *)
Definition block_empty : block := Blk [] [].

(** The block whose text a node shows (nodes.rs:53-91, the non-constant arms). *)
Definition node_block (n : node) : option block :=
  match n with
  | NConst _ => None
  | NConcat v | NVar _ v | NSubst _ _ _ v | NEval v => Some v
  end.

(** src/evaluated/nodes.rs:53-61 [EvaluatedNode::len]. *)
Definition node_len (n : node) : nat :=
  match n with
  | NConst s => blen (l_str s)
  | NConcat v | NVar _ v | NSubst _ _ _ v | NEval v => block_len v
  end.

(** src/evaluated/content_reference.rs:18-24 [ContentReference::new_from_node]. *)
Definition new_from_node (n : node) : cref := CRef 0 (node_len n) n.

(** src/evaluated/content_reference.rs:27-36 [new_from_node_slice]. *)
Definition new_from_node_slice (n : node) (off len : nat) : res cref :=
  let* _ := rassert (off <? node_len n) in
  let* _ := rassert (off + len <=? node_len n) in
  Ok (CRef off len n).

(** src/evaluated/nodes.rs:24-50, content_reference.rs:39-63: the synthetic
    space, newline and semicolon. *)
Definition synth (c : char) : cref := CRef 0 1 (NConst (Located Synthetic [c])).
(** src/evaluated/content_reference.rs:39-63 [space], [newline], [semicolon]. *)
Definition cr_space : cref := synth c_space.
Definition cr_newline : cref := synth c_nl.
Definition cr_semicolon : cref := synth c_semi.

(** * Character iterators

    An iterator (src/evaluated/block_span.rs:156-234, content_reference.rs:74-85,
    nodes.rs:64-76) is modelled by the characters it yields and whether asking for
    one more character after those panics.  Consumers that stop early do not
    see the panic. *)
Definition stream := (list char * bool)%type.

(** `iter.skip(n)` (std; src/evaluated/content_reference.rs:74-76) *)
Definition st_skip (n : nat) (s : stream) : stream := (skipn n (fst s), snd s).
(** `iter.take(n)` (std; src/evaluated/content_reference.rs:74-76) *)
Definition st_take (n : nat) (s : stream) : stream :=
  if n <=? length (fst s) then (firstn n (fst s), false) else s.
(** one iterator after the other (src/evaluated/block_span.rs:178-204) *)
Definition st_app (a b : stream) : stream :=
  if snd a then a else (fst a ++ fst b, snd b).

(** src/evaluated/block_span.rs:178-204 [Iter::next]: the [remaining_bytes]
    counter, whose subtraction panics on underflow. *)
Fixpoint st_limit (remaining : nat) (l : list char) (boom : bool) : stream :=
  match remaining with
  | 0 => ([], false)
  | S _ =>
      match l with
      | [] => ([], boom)
      | c :: l' =>
          if len_utf8 c <=? remaining then
            let '(r, b) := st_limit (remaining - len_utf8 c) l' boom in (c :: r, b)
          else ([], true)
      end
  end.

(** src/evaluated/block_span.rs:156-204 [Iter]: the first reference is skipped by
    [offset], the following ones are read entirely, all is bounded by [length]
    bytes.  [cs] are the character streams of the references. *)
Definition iter_chars (cs : list stream) (offset len : nat) : stream :=
  let all :=
    match cs with
    | [] => ([], false)
    | c :: cs' => st_app (st_skip offset c) (fold_right st_app ([], false) cs')
    end in
  st_limit len (fst all) (snd all).

(** src/evaluated/nodes.rs:64-76 [EvaluatedNode::chars],
    content_reference.rs:74-76 [ContentReference::chars] (skip and take count
    characters although offset and length are bytes). *)
Fixpoint node_chars (n : node) : stream :=
  match n with
  | NConst s => (l_str s, false)
  | NConcat v | NVar _ v | NSubst _ _ _ v | NEval v =>
      match v with
      | Blk _ cs => iter_chars (List.map cref_chars cs) 0 (list_sum (List.map c_len cs))
      end
  end
with cref_chars (c : cref) : stream :=
  match c with
  | CRef off len n => st_take len (st_skip off (node_chars n))
  end.

(** Collecting an iterator (std; src/evaluated/block_span.rs:69-80). *)
Definition st_collect (s : stream) : res str := if snd s then Panic else Ok (fst s).

(** src/evaluated/mod.rs:57-63 [Block::into_string] with
    content_reference.rs:66-71 [append_to_string]. *)
Definition block_into_string (b : block) : res str :=
  st_collect (fold_right st_app ([], false) (List.map cref_chars (b_content b))).

(** src/evaluated/content_reference.rs:79-85 and 150-168 [char_indices]. *)
Fixpoint with_indices (head : nat) (l : list char) : list (nat * char) :=
  match l with
  | [] => []
  | c :: l' => (head, c) :: with_indices (head + len_utf8 c) l'
  end.

(** * Segment iterators

    Again the list of segments yielded before the iterator ends ([false]) or
    panics ([true]) (src/evaluated/block_span.rs:236-302, content_reference.rs:170-200). *)
Definition segs := (list located * bool)%type.

(** One segment iterator after the other (src/evaluated/block_span.rs:257-281). *)
Definition sg_app (a b : segs) : segs :=
  if snd a then a else (fst a ++ fst b, snd b).

(** src/evaluated/content_reference.rs:178-200 [SegmentsIter::next], iterated.
    [l], [boom] are the segments of the node. *)
Fixpoint cref_segs_of (off len : nat) (l : list located) (boom : bool) : segs :=
  match len with
  | 0 => ([], false)
  | S _ =>
      match l with
      | [] => ([], boom)
      | tr :: l' =>
          if blen (l_str tr) <? off then cref_segs_of (off - blen (l_str tr)) len l' boom
          else
            match located_slice tr off (blen (l_str tr) - off) with
            | Ok tr1 =>
                if len <? blen (l_str tr1) then
                  match located_slice tr1 0 len with
                  | Ok tr2 => ([tr2], false)
                  | _ => ([], true)
                  end
                else
                  let '(r, b) := cref_segs_of 0 (len - blen (l_str tr1)) l' boom in
                  (tr1 :: r, b)
            | _ => ([], true)
            end
      end
  end.

(** src/evaluated/block_span.rs:257-302 [SegmentsIter::next_span] and [next],
    iterated.  [l], [boom] are the segments of all references in order. *)
Fixpoint span_segs_of (off len : nat) (l : list located) (boom : bool) : segs :=
  match len with
  | 0 => ([], false)
  | S _ =>
      match l with
      | [] => ([], boom)
      | tr :: l' =>
          if blen (l_str tr) <? off then span_segs_of (off - blen (l_str tr)) len l' boom
          else
            let sliced :=
              if off =? 0 then Ok tr else located_slice tr off (blen (l_str tr) - off) in
            match sliced with
            | Ok tr1 =>
                if len <? blen (l_str tr1) then
                  match located_slice tr1 0 len with
                  | Ok tr2 => ([tr2], false)
                  | _ => ([], true)
                  end
                else
                  let '(r, b) := span_segs_of 0 (len - blen (l_str tr1)) l' boom in
                  (tr1 :: r, b)
            | _ => ([], true)
            end
      end
  end.

(** src/evaluated/block_span.rs:244-302 [SegmentsIter] over the references [cs]. *)
Definition iter_segs (cs : list segs) (off len : nat) : segs :=
  let all := fold_right sg_app ([], false) cs in
  span_segs_of off len (fst all) (snd all).

(** src/evaluated/nodes.rs:79-91 [EvaluatedNode::segments] with 136-150,
    content_reference.rs:88-94 [ContentReference::segments]. *)
Fixpoint node_segs (n : node) : segs :=
  match n with
  | NConst s => ([s], false)
  | NConcat v | NVar _ v | NSubst _ _ _ v | NEval v =>
      match v with
      | Blk _ cs => iter_segs (List.map cref_segs cs) 0 (list_sum (List.map c_len cs))
      end
  end
with cref_segs (c : cref) : segs :=
  match c with
  | CRef off len n =>
      let s := node_segs n in cref_segs_of off len (fst s) (snd s)
  end.

(** * Simplification *)

(** src/evaluated/content_reference.rs:111-118: drop the leading references that
    end before the offset, and move the offset into the first one left. *)
Fixpoint trim_front {A} (off : nat) (l : list (nat * nat * A)) : res (list (nat * nat * A)) :=
  match l with
  | [] => Panic
  | (o, n, a) :: l' =>
      if n <=? off then trim_front (off - n) l' else Ok ((o + off, n - off, a) :: l')
  end.

(** src/evaluated/content_reference.rs:119-126: keep references until [len] bytes
    are covered, and shorten the last one.  Only reached with [len] > 0
    (mod.rs:153 filters empty references); the model panics on 0. *)
Fixpoint trim_back {A} (len : nat) (l : list (nat * nat * A)) : res (list (nat * nat * A)) :=
  match l with
  | [] => Panic
  | (o, n, a) :: l' =>
      if len <=? n then (if len =? 0 then Panic else Ok [(o, len, a)])
      else let* r := trim_back (len - n) l' in Ok ((o, n, a) :: r)
  end.

(** src/evaluated/content_reference.rs:99-135 [ContentReference::simplify] on the
    reference [CRef off len n], and mod.rs:148-161 [Block::simplify] for the
    inner block.  Structural recursion goes through closures: the references of
    the inner block keep their nodes, only offsets and lengths change. *)
Fixpoint simplify_ref (n : node) (off len : nat) {struct n} : res cref :=
  match n with
  | NConst s => let* s' := located_slice s off len in Ok (CRef 0 len (NConst s'))
  | NConcat b =>
      match b with
      | Blk sens cs =>
          let items :=
            List.map (fun c => match c with CRef o l m => (o, l, simplify_ref m) end) cs in
          let* items := trim_front off items in
          let* items := trim_back len items in
          let* cs' := mapM (fun '(o, l, f) => f o l)
                           (filter (fun '(_, l, _) => negb (l =? 0)) items) in
          Ok (CRef 0 len (NConcat (Blk sens cs')))
      end
  | _ => Ok (CRef off len n)
  end.

(** src/evaluated/content_reference.rs:99-135 [ContentReference::simplify]. *)
Definition cref_simplify (c : cref) : res cref :=
  match c with CRef off len n => simplify_ref n off len end.

(** src/evaluated/mod.rs:148-161 [Block::simplify]. *)
Definition block_simplify (b : block) : res block :=
  let* cs := mapM cref_simplify (filter (fun c => negb (c_len c =? 0)) (b_content b)) in
  Ok (Blk (b_sens b) cs).

(** src/evaluated/mod.rs:41-51 [Block::new]. *)
Definition block_new (sens : list N) (content : list cref) : res block :=
  block_simplify (Blk sens content).

(** src/evaluated/mod.rs:165-191, the constructors of content references. *)
Definition ev_constant (l : located) : cref := new_from_node (NConst l).
(** src/evaluated/mod.rs:165-191 [concat], [variable_reference] and
    [substitution_reference]. *)
Definition ev_concat (b : block) : cref := new_from_node (NConcat b).
Definition ev_variable_reference (name value : block) : cref := new_from_node (NVar name value).
Definition ev_substitution_reference (name key replacement value : block) : cref :=
  new_from_node (NSubst name key replacement value).

(** src/evaluated/mod.rs:97-99 [Block::push]. *)
Definition block_push (b : block) (c : cref) : block := Blk (b_sens b) (b_content b ++ [c]).

(** * Spans *)

(** src/evaluated/block_span.rs:7-17 [BlockSpan].  [sp_contents], a slice of the
    parent's content, is always a suffix of it; its address is represented by
    its length. *)
Record span := Span {
  sp_parent : block;
  sp_contents : list cref;
  sp_off : nat;
  sp_len : nat
}.

(** src/evaluated/mod.rs:71-79 [Block::span]. *)
Definition block_span (b : block) : span := Span b (b_content b) 0 (block_len b).

(** src/evaluated/block_span.rs:20-27 [BlockSpan::empty]. *)
Definition span_empty : span := Span block_empty [] 0 0.

(** src/evaluated/block_span.rs:32-42 [BlockSpan::empty_with_parent] as called
    at nom/mod.rs:99 and 117, with the empty tail of the contents. *)
Definition span_empty_tail (s : span) : span := Span (sp_parent s) [] 0 0.

(** src/evaluated/block_span.rs:45-56 [BlockSpan::revalidate_offset]. *)
Fixpoint reval (off : nat) (cs : list cref) : res (nat * list cref) :=
  match cs with
  | [] => Panic
  | c :: cs' => if c_len c <=? off then reval (off - c_len c) cs' else Ok (off, cs)
  end.

(** src/evaluated/block_span.rs:45-56 [BlockSpan::revalidate_offset], 47: empty
    spans are left alone. *)
Definition revalidate (s : span) : res span :=
  if sp_len s =? 0 then Ok s
  else let* '(off, cs) := reval (sp_off s) (sp_contents s) in
       Ok (Span (sp_parent s) cs off (sp_len s)).

(** src/evaluated/block_span.rs:89-91 [BlockSpan::chars]. *)
Definition span_chars (s : span) : stream :=
  iter_chars (List.map cref_chars (sp_contents s)) (sp_off s) (sp_len s).

(** src/evaluated/block_span.rs:94-96, 207-234 [BlockSpan::char_indices]. *)
Definition span_indices (s : span) : list (nat * char) * bool :=
  (with_indices 0 (fst (span_chars s)), snd (span_chars s)).

(** src/evaluated/block_span.rs:69-80 [BlockSpan::into_string]. *)
Definition span_into_string (s : span) : res str :=
  if sp_len s =? 0 then Ok [] else st_collect (span_chars s).

(** src/evaluated/block_span.rs:99-101 [BlockSpan::segments]. *)
Definition span_segs (s : span) : segs :=
  iter_segs (List.map cref_segs (sp_contents s)) (sp_off s) (sp_len s).

(** src/evaluated/block_span.rs:84-86 [BlockSpan::location]. *)
Definition span_location (s : span) : res (option location) :=
  match span_segs s with
  | (l :: _, _) => Ok (Some (l_loc l))
  | ([], false) => Ok None
  | ([], true) => Panic
  end.

(** The loop shared by src/evaluated/block_span.rs:119-130 and
    src/evaluated/mod.rs:117-128: the references covering [remaining] bytes. *)
Fixpoint cover (remaining : nat) (cs : list cref) : res (list cref) :=
  match cs with
  | [] => Panic
  | CRef o l n :: cs' =>
      if l <? remaining then let* r := cover (remaining - l) cs' in Ok (CRef o l n :: r)
      else Ok [CRef o remaining n]
  end.

(** src/evaluated/block_span.rs:109-130 / src/evaluated/mod.rs:108-128. *)
Definition span_cover (s : span) : res (list cref) :=
  match sp_contents s with
  | [] => Panic
  | CRef o l n :: cs =>
      let* _ := rassert (sp_off s <? l) in
      cover (sp_len s) (CRef (o + sp_off s) (l - sp_off s) n :: cs)
  end.

(** src/evaluated/block_span.rs:104-133 [BlockSpan::to_new_block]. *)
Definition to_new_block (s : span) : res block :=
  if sp_len s =? 0 then Ok block_empty
  else let* cs := span_cover s in block_new (b_sens (sp_parent s)) cs.

(** src/evaluated/block_span.rs:136-138 [BlockSpan::to_content_reference]. *)
Definition to_content_reference (s : span) : res cref :=
  let* b := to_new_block s in Ok (new_from_node (NConcat b)).

(** src/evaluated/mod.rs:102-140 [Block::push_all_contents].  The `ptr::eq`
    test of 135 only avoids adding a set to itself and is dropped. *)
Definition push_all_contents (b : block) (s : span) : res block :=
  if sp_len s =? 0 then Ok b
  else let* cs := span_cover s in
       Ok (Blk (set_union (b_sens b) (b_sens (sp_parent s))) (b_content b ++ cs)).
