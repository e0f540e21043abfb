(** Model of src/evaluated/nom/mod.rs (nom's input traits for [BlockSpan]). *)
From Verif Require Import Base LocModel EvdModel.

(** src/evaluated/nom/mod.rs:39-45 [slice_index]. *)
Definition slice_index (s : span) (count : nat) : option nat :=
  if count <=? sp_len s then Some count else None.

(** src/evaluated/nom/mod.rs:54-63 [slice(a..b)]. *)
Definition slice_range (s : span) (a b : nat) : res span :=
  let* len := usub b a in
  revalidate (Span (sp_parent s) (sp_contents s) (sp_off s + a) len).

(** src/evaluated/nom/mod.rs:65-74 [slice(a..)]. *)
Definition slice_from (s : span) (a : nat) : res span :=
  let* len := usub (sp_len s) a in
  revalidate (Span (sp_parent s) (sp_contents s) (sp_off s + a) len).

(** src/evaluated/nom/mod.rs:76-83 [slice(..b)] (no bound check). *)
Definition slice_to (s : span) (b : nat) : span :=
  Span (sp_parent s) (sp_contents s) (sp_off s) b.

(** `iter_indices().find(|(_, c)| p(c))` on a lazy iterator
    (src/evaluated/nom/mod.rs:92, 109). *)
Fixpoint find_index (p : char -> bool) (l : list (nat * char)) (boom : bool)
  : res (option nat) :=
  match l with
  | [] => if boom then Panic else Ok None
  | (i, c) :: l' => if p c then Ok (Some i) else find_index p l' boom
  end.

(** src/evaluated/nom/mod.rs:88-103 [split_at_position]: (rest, prefix). *)
Definition split_at_position (s : span) (p : char -> bool) : res (span * span) :=
  let '(l, boom) := span_indices s in
  let* found := find_index p l boom in
  match found with
  | Some i => let* fst := slice_from s i in Ok (fst, slice_to s i)
  | None => Ok (span_empty_tail s, s)
  end.

(** src/evaluated/nom/mod.rs:105-126 [split_at_position1]; [None] is the error. *)
Definition split_at_position1 (s : span) (p : char -> bool) : res (option (span * span)) :=
  let '(l, boom) := span_indices s in
  let* found := find_index p l boom in
  match found with
  | Some 0 => Ok None
  | Some i => let* fst := slice_from s i in Ok (Some (fst, slice_to s i))
  | None => if sp_len s =? 0 then Ok None else Ok (Some (span_empty_tail s, s))
  end.

(** src/evaluated/nom/mod.rs:31-36 [position]: a character count. *)
Fixpoint find_position (p : char -> bool) (l : list char) (boom : bool) : res (option nat) :=
  match l with
  | [] => if boom then Panic else Ok None
  | c :: l' =>
      if p c then Ok (Some 0)
      else let* r := find_position p l' boom in Ok (option_map S r)
  end.
(** src/evaluated/nom/mod.rs:31-36 [position]. *)
Definition position (s : span) (p : char -> bool) : res (option nat) :=
  find_position p (fst (span_chars s)) (snd (span_chars s)).

(** src/evaluated/nom/mod.rs:131-135 [take]. *)
Definition take (s : span) (n : nat) : res span :=
  let* _ := rassert (n <=? sp_len s) in Ok (slice_to s n).

(** src/evaluated/nom/mod.rs:138-142 [take_split]: (suffix, prefix). *)
Definition take_split (s : span) (n : nat) : res (span * span) :=
  let* _ := rassert (n <=? sp_len s) in
  let* fst := slice_from s n in Ok (fst, slice_to s n).

(** nom's CompareResult. *)
Inductive compare_result := CmpOk | CmpIncomplete | CmpError.

(** `iter.zip(t).position(|(a, b)| a != b)` reduced to "is there a difference";
    zip asks the left iterator first, so a panic past the common part shows
    even if [t] is exhausted (src/evaluated/nom/mod.rs:153-157, 171-176). *)
Fixpoint zip_differs (l : list char) (boom : bool) (t : list char) : res bool :=
  match l with
  | [] => if boom then Panic else Ok false
  | a :: l' =>
      match t with
      | [] => Ok false
      | b :: t' => if (a =? b)%N then zip_differs l' boom t' else Ok true
      end
  end.

(** The code shared by src/evaluated/nom/mod.rs:152-168 and 170-187. *)
Definition compare_with (l : list char) (boom : bool) (t : list char)
  (len tlen : nat) : res compare_result :=
  let* d := zip_differs l boom t in
  Ok (if d then CmpError else if tlen <=? len then CmpOk else CmpIncomplete).

(** src/evaluated/nom/mod.rs:152-168 [compare]. *)
Definition compare (s : span) (t : str) : res compare_result :=
  compare_with (fst (span_chars s)) (snd (span_chars s)) t (sp_len s) (blen t).

(** `char::to_lowercase` (std; src/evaluated/nom/mod.rs:173-174).  Exact on ASCII and on the two characters whose
    lower case contains ASCII letters (U+212A, U+0130); other characters are
    left alone, which cannot change a comparison with the ASCII tags hastur
    uses. *)
Definition to_lowercase (c : char) : list char :=
  if ((65 <=? c) && (c <=? 90))%N then [c + 32]%N
  else if (c =? 8490)%N then [107]%N
  else if (c =? 304)%N then [105; 775]%N
  else [c].

(** src/evaluated/nom/mod.rs:170-187 [compare_no_case]. *)
Definition compare_no_case (s : span) (t : str) : res compare_result :=
  compare_with (flat_map to_lowercase (fst (span_chars s))) (snd (span_chars s))
    (flat_map to_lowercase t) (sp_len s) (blen t).

(** `v[i] = x` (src/evaluated/nom/mod.rs:210, 229). *)
Fixpoint set_nth (i : nat) (x : N) (v : list N) : res (list N) :=
  match v, i with
  | [], _ => Panic
  | _ :: v', 0 => Ok (x :: v')
  | y :: v', S i' => let* r := set_nth i' x v' in Ok (y :: r)
  end.

(** src/evaluated/nom/mod.rs:209-211: `for i in 0..char_size { buffer[at + i] = .. }`. *)
Fixpoint write_at (at_ : nat) (bs : list N) (buf : list N) : res (list N) :=
  match bs with
  | [] => Ok buf
  | b :: bs' => let* buf' := set_nth at_ b buf in write_at (S at_) bs' buf'
  end.

(** src/evaluated/nom/mod.rs:206-213: fill the buffer.  [l] are the characters
    still to come. *)
Fixpoint fs_fill (n : nat) (idx : nat) (l : list (nat * char)) (boom : bool) (buf : list N)
  : res (list N * list (nat * char)) :=
  if idx <? n then
    match l with
    | [] => Panic (* `.unwrap()` on None, or the iterator's own panic *)
    | (i, c) :: l' =>
        let* buf' := write_at idx (utf8 c) buf in
        fs_fill n (i + len_utf8 c) l' boom buf'
    end
  else Ok (buf, l).

(** src/evaluated/nom/mod.rs:228-230: write the bytes of a character into the ring. *)
Fixpoint write_ring (n start : nat) (bs : list N) (buf : list N) : res (list N) :=
  match bs with
  | [] => Ok buf
  | b :: bs' =>
      let* buf' := set_nth (start mod n) b buf in write_ring n (S start) bs' buf'
  end.

(** src/evaluated/nom/mod.rs:233-239: compare the ring with the needle. *)
Fixpoint ring_matches (n start : nat) (needle buf : list N) : bool :=
  match needle with
  | [] => true
  | b :: needle' =>
      (nth (start mod n) buf 0%N =? b)%N && ring_matches n (S start) needle' buf
  end.

(** src/evaluated/nom/mod.rs:219-246, the scan. *)
Fixpoint fs_scan (needle : list N) (start : nat) (l : list (nat * char)) (boom : bool)
  (buf : list N) : res (option nat) :=
  match l with
  | [] => if boom then Panic else Ok None
  | (i, c) :: l' =>
      let n := length needle in
      let* buf' := write_ring n start (utf8 c) buf in
      let start' := (start + len_utf8 c) mod n in
      if ring_matches n start' needle buf' then
        let* d := usub i n in Ok (Some (d + 1))
      else fs_scan needle start' l' boom buf'
  end.

(** equality of byte vectors (src/evaluated/nom/mod.rs:215) *)
Definition bytes_eqb := str_eqb.

(** src/evaluated/nom/mod.rs:191-247 [find_substring].  With the disabled
    `debug!` arguments of 241 not evaluated, `i - substr.len()` of 242 still is. *)
Definition find_substring (s : span) (substr : str) : res (option nat) :=
  let needle := bytes substr in
  let n := blen substr in
  if sp_len s <? n then Ok None
  else
    let '(l, boom) := span_indices s in
    let* '(buf, l') := fs_fill n 0 l boom (repeat 0%N n) in
    if bytes_eqb buf needle then Ok (Some 0)
    else fs_scan needle 0 l' boom buf.

(** src/evaluated/nom/mod.rs:262-268: the walk.  [k] is how many references lie
    between; `walk.as_ptr() != snd` becomes a countdown. *)
Fixpoint offset_walk (k : nat) (walk : list cref) (acc : nat) : nat :=
  match k, walk with
  | S k', c :: walk' => offset_walk k' walk' (acc + c_len c)
  | _, _ => acc
  end.

(** src/evaluated/nom/mod.rs:251-270 [offset].  Both spans are assumed to have
    the same parent object (252); positions are measured by the number of
    references left. *)
Definition offset (s second : span) : res nat :=
  let n1 := length (sp_contents s) in
  let n2 := length (sp_contents second) in
  let* delta := usub n1 n2 in
  match delta with
  | 0 => usub (sp_off second) (sp_off s)
  | S k =>
      match sp_contents s with
      | [] => Panic
      | c :: walk =>
          let* tr := usub (c_len c) (sp_off s) in
          Ok (offset_walk k walk tr)
      end
  end.
