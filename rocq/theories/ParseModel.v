(** Model of nom 4.2's combinators as used by hastur, and of src/parsers/mod.rs
    (lines, tokens, unquoting), comment.rs, file_sequence.rs and
    src/ast/text_functions.rs. *)
From Coq Require Import String.
From Verif Require Import Base LocModel EvdModel NomModel AstModel.
Local Open Scope nat_scope.

(** * Parse results *)

(** src/lib.rs:60-126 [ParseErrorKind]; the error kind of an I/O error is a
    number. *)
Inductive pekind :=
| ExtraTokensAfter (s : string)
| UnattachedElse
| UnattachedEndIf
| TooManyElses
| CommentExpected
| NoRuleRecipe
| MissingSeparator
| RecipeExpected
| ConditionalExpected
| BadIfEqSeparator
| MalformedIfDef
| MalformedIfEq
| UnternimatedVariable
| InsufficientArguments (s : string)
| ExtraArguments (s : string)
| IncludeFailure (k : N) (file : str)
| NomError (k : N)
| InternalFailure (s : string).

(** nom::ErrorKind: hastur only ever looks at custom kinds, so nom's own kinds
    are all [KNom]. *)
Inductive kind := KNom | KCustom (k : pekind).

(** `IResult<BlockSpan, A, ParseErrorKind>`.  The context of an error is the
    list of its kinds, innermost first; the spans in it are dropped (nothing but
    `debug!` reads them).  `Err::Incomplete` does not exist: `BlockSpan::at_eof`
    is constantly true (src/evaluated/nom/mod.rs:274-278). *)
Inductive presult (A : Type) : Type :=
| POk (rest : span) (a : A)
| PError (ks : list kind)
| PFailure (ks : list kind).
Arguments POk {A} rest a.
Arguments PError {A} ks.
Arguments PFailure {A} ks.

(** The type of parsers: functions from a [BlockSpan] to an `IResult` (nom). *)
Definition parser (A : Type) := span -> res (presult A).

(** `?` and sequencing (Rust and nom `do_parse!`). *)
Definition pbind {A B} (r : res (presult A)) (f : span -> A -> res (presult B)) : res (presult B) :=
  let* r := r in
  match r with
  | POk i a => f i a
  | PError ks => Ok (PError ks)
  | PFailure ks => Ok (PFailure ks)
  end.
Notation "'let!' ( i , x ) ':=' e 'in' k" := (pbind e (fun i x => k))
  (at level 200, i name, x name, e at level 100, k at level 200, right associativity).

(** `Ok((i, a))` and nom's `Err(Err::Error(..))`. *)
Definition pok {A} (i : span) (a : A) : res (presult A) := Ok (POk i a).
Definition perror {A} (k : kind) : res (presult A) := Ok (PError [k]).

(** `parser => { f }` in an alternative of nom `alt!`. *)
Definition pmap {A B} (f : A -> B) (p : parser A) : parser B :=
  fun i => let! (i, a) := p i in pok i (f a).

(** src/parsers/mod.rs:609-617 [error_out], 620-628 [fail_out]. *)
Definition error_out {A} (k : pekind) : res (presult A) := Ok (PError [KCustom k]).
Definition fail_out {A} (k : pekind) : res (presult A) := Ok (PFailure [KCustom k]).

(** nom `alt!` / `alt_complete!`: the next alternative on `Error`. *)
Fixpoint palt {A} (ps : list (parser A)) (i : span) : res (presult A) :=
  match ps with
  | [] => perror KNom
  | p :: ps' =>
      let* r := p i in
      match r with
      | PError _ => palt ps' i
      | _ => Ok r
      end
  end.

(** nom `take_until!(t)`. *)
Definition take_until (t : str) : parser span := fun i =>
  let* at_ := find_substring i t in
  match at_ with
  | Some idx => let* '(suffix, prefix) := take_split i idx in pok suffix prefix
  | None => perror KNom
  end.

(** nom `take_until_and_consume!(t)`. *)
Definition take_until_and_consume (t : str) : parser span := fun i =>
  let* at_ := find_substring i t in
  match at_ with
  | Some idx => let* rest := slice_from i (idx + blen t) in pok rest (slice_to i idx)
  | None => perror KNom
  end.

(** nom `tag!(t)`. *)
Definition tag (t : str) : parser span := fun i =>
  let* c := compare i t in
  match c with
  | CmpOk => let* '(suffix, prefix) := take_split i (blen t) in pok suffix prefix
  | _ => perror KNom
  end.

(** nom `tag_no_case!(t)`. *)
Definition tag_no_case (t : str) : parser span := fun i =>
  let* c := compare_no_case i t in
  match c with
  | CmpOk => let* '(suffix, prefix) := take_split i (blen t) in pok suffix prefix
  | _ => perror KNom
  end.

(** `i.iter_elements().next()` / `i.chars().next()` (for example
    src/parsers/targets/mod.rs:567-575, src/parsers/mod.rs:239). *)
Definition first_char (i : span) : res (option char) :=
  match span_chars i with
  | (c :: _, _) => Ok (Some c)
  | ([], true) => Panic
  | ([], false) => Ok None
  end.

(** nom `char!(c)`. *)
Definition pchar (c : char) : parser char := fun i =>
  let* o := first_char i in
  match o with
  | Some c' =>
      if (c' =? c)%N then let* rest := slice_from i (len_utf8 c) in pok rest c
      else perror KNom
  | None => perror KNom
  end.

(** nom `take!(n)`. *)
Definition ptake (n : nat) : parser span := fun i =>
  match slice_index i n with
  | Some n => let* '(suffix, prefix) := take_split i n in pok suffix prefix
  | None => perror KNom
  end.

(** nom `take_till!(p)`; `take_while!(p)` is [take_till] of the negation. *)
Definition take_till (p : char -> bool) : parser span := fun i =>
  let* '(rest, prefix) := split_at_position i p in pok rest prefix.

(** nom `nom::rest`. *)
Definition prest : parser span := fun i =>
  let* e := slice_from i (sp_len i) in pok e i.

(** nom `eof!()`. *)
Definition peof : parser span := fun i => if sp_len i =? 0 then pok i i else perror KNom.

(** nom `opt!(p)`. *)
Definition popt {A} (p : parser A) : parser (option A) := fun i =>
  let* r := p i in
  match r with
  | POk i' a => pok i' (Some a)
  | PError _ => pok i None
  | PFailure ks => Ok (PFailure ks)
  end.

(** nom `preceded!(a, b)`, `terminated!(a, b)`. *)
Definition preceded {A B} (a : parser A) (b : parser B) : parser B := fun i =>
  let! (i, _) := a i in b i.
Definition terminated {A B} (a : parser A) (b : parser B) : parser A := fun i =>
  let! (i, x) := a i in let! (i, _) := b i in pok i x.

(** The loop of nom `many1!(p)`; only the rest is kept.  Each round shortens the
    input, so [fuel] = length + 1 suffices. *)
Fixpoint many_loop {A} (fuel : nat) (p : parser A) (i : span) : res (presult unit) :=
  match fuel with
  | 0 => OutOfFuel
  | S fuel' =>
      let* r := p i in
      match r with
      | PError _ => pok i tt
      | PFailure ks => Ok (PFailure ks)
      | POk i' _ => if sp_len i' =? sp_len i then pok i tt else many_loop fuel' p i'
      end
  end.

(** nom `many1!(p)`. *)
Definition many1 {A} (p : parser A) : parser unit := fun i =>
  let* r := p i in
  match r with
  | PError _ => perror KNom
  | PFailure _ => Ok (PFailure [KNom])
  | POk i' _ => many_loop (S (sp_len i')) p i'
  end.

(** nom `recognize!(p)`. *)
Definition recognize {A} (p : parser A) : parser span := fun i =>
  let! (i', _) := p i in
  let* n := offset i i' in
  pok i' (slice_to i n).

(** nom `add_return_error!(k, p)`. *)
Definition add_return_error {A} (k : pekind) (p : parser A) : parser A := fun i =>
  let* r := p i in
  Ok (match r with
      | POk i a => POk i a
      | PError ks => PError (ks ++ [KCustom k])
      | PFailure ks => PFailure (ks ++ [KCustom k])
      end).

(** nom `return_error!(k, p)`. *)
Definition return_error {A} (k : pekind) (p : parser A) : parser A := fun i =>
  let* r := p i in
  Ok (match r with
      | POk i a => POk i a
      | PError ks | PFailure ks => PFailure (ks ++ [KCustom k])
      end).

(** nom `into_error_kind`: the innermost kind (src/parsers/ast/mod.rs:128,
    src/parsers/variable/mod.rs:185). *)
Definition error_kind (ks : list kind) : kind := match ks with k :: _ => k | [] => KNom end.

(** * src/parsers/mod.rs *)

(** `char::is_whitespace` (std, Unicode White_Space; src/parsers/file_sequence.rs:69,
    src/parsers/variable/mod.rs:289, 411, src/parsers/targets/mod.rs:608). *)
Definition is_whitespace (c : char) : bool :=
  existsb (N.eqb c)
    [9; 10; 11; 12; 13; 32; 133; 160; 5760; 8192; 8193; 8194; 8195; 8196; 8197; 8198; 8199; 8200;
     8201; 8202; 8232; 8233; 8239; 8287; 12288]%N.

(** `char::is_alphabetic` (std; src/parsers/targets/mod.rs:456, 593, 608), for ASCII only: other characters are taken to be
    non-alphabetic. *)
Definition is_alphabetic (c : char) : bool :=
  ((65 <=? c) && (c <=? 90) || (97 <=? c) && (c <=? 122))%N.

(** `str::trim` (std; src/parsers/variable/mod.rs:233, 260, 338,
    src/parsers/conditional/mod.rs:51-52). *)
Fixpoint trim_start (s : str) : str :=
  match s with
  | c :: s' => if is_whitespace c then trim_start s' else s
  | [] => []
  end.
Definition trim (s : str) : str := rev (trim_start (rev (trim_start s))).

(** The test `c == ' ' || c == '\t'` of src/parsers/mod.rs:349, 362, 520. *)
Definition is_blank (c : char) : bool := ((c =? c_space) || (c =? c_tab))%N.

(** src/parsers/mod.rs:346-350 [makefile_whitespace]. *)
Definition makefile_whitespace : parser span := take_till (fun c => negb (is_blank c)).

(** src/parsers/mod.rs:354-366 [makefile_token]. *)
Definition makefile_token : parser span :=
  preceded makefile_whitespace (terminated (take_till is_blank) makefile_whitespace).

(** src/parsers/mod.rs:302-306 [LineEndReason]. *)
Inductive line_end := LEComment | LELineBreak | LEEOF.

(** src/parsers/mod.rs:309-337 [makefile_grab_line]. *)
Definition makefile_grab_line : parser (span * line_end) :=
  palt
    [ pmap (fun l => (l, LEComment)) (take_until [c_hash]);
      pmap (fun l => (l, LELineBreak)) (terminated (take_until [c_nl]) (tag [c_nl]));
      pmap (fun l => (l, LELineBreak)) (terminated (take_until [c_cr; c_nl]) (tag [c_cr; c_nl]));
      pmap (fun l => (l, LEEOF)) prest ].

(** src/parsers/mod.rs:631-641 [ends_with_backslash]. *)
Fixpoint trailing_backslashes (l : list char) (n : nat) : nat :=
  match l with
  | [] => n
  | c :: l' => trailing_backslashes l' (if (c =? c_bslash)%N then S n else 0)
  end.
(** src/parsers/mod.rs:631-641 [ends_with_backslash]. *)
Definition ends_with_backslash (s : span) : res nat :=
  let* t := st_collect (span_chars s) in Ok (trailing_backslashes t 0).

(** src/parsers/mod.rs:472-477 [ParserCompliance]. *)
Inductive compliance := GNU | POSIX.

(** src/parsers/mod.rs:518-524: index of the last character that is neither
    blank nor a backslash. *)
Fixpoint last_non_whitespace (l : list (nat * char)) (last : nat) : nat :=
  match l with
  | [] => last
  | (i, c) :: l' =>
      last_non_whitespace l' (if is_blank c || (c =? c_bslash)%N then last else i)
  end.

(** src/parsers/mod.rs:497-534 [clean_line_end]. *)
Definition clean_line_end (s : span) (backslash_count : nat) (wh : compliance) : res span :=
  if backslash_count =? 1 then
    match wh with
    | POSIX => let* n := usub (sp_len s) 1 in Ok (slice_to s n)
    | GNU =>
        if sp_len s <? 2 then slice_range s 0 0
        else
          let '(l, boom) := span_indices s in
          if boom then Panic else Ok (slice_to s (last_non_whitespace l 0 + 1))
    end
  else
    let* n := usub (sp_len s) backslash_count in
    Ok (slice_to s (n + backslash_count / 2)).

(** src/parsers/mod.rs:560-603: the loop over continuation lines.  Each round
    but the last consumes a newline, so [fuel] = length + 2 suffices. *)
Fixpoint makefile_line_loop (fuel : nat) (wh : compliance) (i : span) (strip add_space : bool)
  (reason : line_end) (lines : list cref) : res (presult block) :=
  match fuel with
  | 0 => OutOfFuel
  | S fuel' =>
      let '(lines, add_space) :=
        match reason with
        | LEComment => (lines ++ [cr_space], add_space)
        | _ =>
            if add_space && negb strip then (lines ++ [cr_space], add_space)
            else (lines, true)
        end in
      let* r := preceded makefile_whitespace makefile_grab_line i in
      match r with
      | PError _ => let* b := block_new [] lines in pok i b
      | PFailure ks => Ok (PFailure ks)
      | POk i (line, reason) =>
          let* bc := ends_with_backslash line in
          if Nat.even bc then
            let* c := to_content_reference line in
            let* b := block_new [] (lines ++ [c]) in pok i b
          else
            let* line := clean_line_end line bc wh in
            if 0 <? sp_len line then
              let* c := to_content_reference line in
              makefile_line_loop fuel' wh i false add_space reason (lines ++ [c])
            else makefile_line_loop fuel' wh i strip false reason lines
      end
  end.

(** src/parsers/mod.rs:487-606 [makefile_line]. *)
Definition makefile_line (i : span) (wh : compliance) (strip : bool) : res (presult block) :=
  let first := if strip then preceded makefile_whitespace makefile_grab_line else makefile_grab_line in
  let* r := first i in
  match r with
  | PError ks => Ok (PError ks)
  | PFailure ks => Ok (PFailure ks)
  | POk i (line, reason) =>
      let* bc := ends_with_backslash line in
      if Nat.even bc then
        let* c := to_content_reference line in
        let* b := block_new [] [c] in pok i b
      else
        let* line := clean_line_end line bc wh in
        if 0 <? sp_len line then
          let* c := to_content_reference line in
          makefile_line_loop (S (S (sp_len i))) wh i false true reason [c]
        else makefile_line_loop (S (S (sp_len i))) wh i strip true reason []
  end.

(** src/parsers/mod.rs:393-428: the search loop of [makefile_take_until_unquote].
    [last1] is `last_nonslash_idx + 1`, [nps] is `next_push_start`; the result
    gives the output so far, `stop_character` (also telling `stopchar_seen`),
    [last1], [nps] and the index of the unquoted stop character if found. *)
Fixpoint unquote_loop (i : span) (stop : char -> bool) (l : list (nat * char)) (boom : bool)
  (tr : block) (sc : option span) (last1 nps : nat)
  : res (block * option span * nat * nat * option nat) :=
  match l with
  | [] => if boom then Panic else Ok (tr, sc, last1, nps, None)
  | (idx, ch) :: l' =>
      let last1' := if (ch =? c_bslash)%N then last1 else S idx in
      if stop ch then
        let* c := slice_range i idx (idx + 1) in
        let slash_count := idx - last1 in
        let end_idx := idx - slash_count / 2 in
        if Nat.odd slash_count then
          let* piece := slice_range i nps (end_idx - 1) in
          let* tr := push_all_contents tr piece in
          unquote_loop i stop l' boom tr (Some c) last1' idx
        else
          let* piece := slice_range i nps end_idx in
          let* tr := push_all_contents tr piece in
          Ok (tr, Some c, last1, nps, Some idx)
      else unquote_loop i stop l' boom tr sc last1' nps
  end.

(** src/parsers/mod.rs:378-467 [makefile_take_until_unquote]. *)
Definition makefile_take_until_unquote (i : span) (stop : char -> bool)
  : res (block * option (span * span)) :=
  let '(l, boom) := span_indices i in
  let* '(tr, sc, last1, nps, found) := unquote_loop i stop l boom (Blk (b_sens (sp_parent i)) []) None 0 0 in
  (* 433-447 *)
  let* '(tr, nps, at_) :=
    match found with
    | Some idx => Ok (tr, nps, idx)
    | None =>
        if stop 0%N then
          let idx := sp_len i in
          let slash_count := idx - last1 in
          let* piece := slice_range i nps (idx - slash_count / 2) in
          let* tr := push_all_contents tr piece in
          if Nat.odd slash_count then Ok (tr, idx, S (sp_len i))
          else let* at_ := usub idx 1 in Ok (tr, nps, at_)
        else Ok (tr, nps, S (sp_len i))
    end in
  (* 449-466 *)
  if at_ <? sp_len i then
    let* c := match sc with Some c => Ok c | None => slice_from i (sp_len i) end in
    let* tr := block_simplify tr in
    let* post := slice_from i (at_ + 1) in
    Ok (tr, Some (c, post))
  else if at_ =? sp_len i then
    let* c := match sc with Some c => Ok c | None => slice_from i (sp_len i) end in
    let* tr := block_simplify tr in
    let* post := slice_from i at_ in
    Ok (tr, Some (c, post))
  else
    match sc with
    | None => let* b := to_new_block i in Ok (b, None)
    | Some _ =>
        let* piece := slice_from i nps in
        let* tr := push_all_contents tr piece in
        let* tr := block_simplify tr in
        Ok (tr, None)
    end.

(** * src/parsers/comment.rs *)

(** src/parsers/comment.rs:22-32: each round consumes a character or reaches the
    end of input, so [fuel] = length + 2 suffices. *)
Fixpoint comment_loop (fuel : nat) (i : span) (line : span) (reason : line_end) : res (presult unit) :=
  match fuel with
  | 0 => OutOfFuel
  | S fuel' =>
      (* `||` does not look at the line after a comment *)
      let* go :=
        match reason with
        | LEComment => Ok true
        | _ => let* n := ends_with_backslash line in Ok (Nat.odd n)
        end in
      if go then
        let! (i, out) := preceded (popt (pchar c_hash)) makefile_grab_line i in
        comment_loop fuel' i (fst out) (snd out)
      else pok i tt
  end.

(** src/parsers/comment.rs:9-35 [parse_comment]. *)
Definition parse_comment : parser unit := fun i =>
  let! (i, out) :=
    preceded (add_return_error CommentExpected (pchar c_hash)) makefile_grab_line i in
  comment_loop (S (S (sp_len i))) i (fst out) (snd out).

(** src/parsers/comment.rs:38-43 [parse_comment_following_whitespace]. *)
Definition parse_comment_following_whitespace : parser unit :=
  preceded makefile_whitespace parse_comment.

(** * src/parsers/file_sequence.rs *)

(** src/parsers/file_sequence.rs:89-99 [clean_match]; the only option read is
    [strip_leading_dotslash]. *)
Definition clean_match (i : span) (strip_leading_dotslash : bool) : res block :=
  let* i :=
    if strip_leading_dotslash then
      let* r := tag [46; 47]%N i in
      Ok (match r with POk i' _ => i' | _ => i end)
    else Ok i in
  to_new_block i.

(** src/parsers/file_sequence.rs:68-70: the stop predicate. *)
Definition file_stop (extra : str) (c : char) : bool :=
  is_whitespace c || (c =? 0)%N || existsb (N.eqb c) extra.

(** src/parsers/file_sequence.rs:67-84.  Each round shortens the input. *)
Fixpoint file_seq_loop (fuel : nat) (strip_dot : bool) (extra : str) (i : span) (out : list block)
  : res (list block) :=
  match fuel with
  | 0 => OutOfFuel
  | S fuel' =>
      if 0 <? sp_len i then
        let* '(pre, r) := makefile_take_until_unquote i (file_stop extra) in
        let* i' :=
          match r with
          | Some (_, post) => Ok post
          | None => slice_from i (sp_len i)
          end in
        let* out :=
          if 0 <? block_len pre then
            let* b := clean_match (block_span pre) strip_dot in Ok (out ++ [b])
          else Ok out in
        file_seq_loop fuel' strip_dot extra i' out
      else Ok out
  end.

(** src/parsers/file_sequence.rs:45-87 [parse_file_seq].  [check_ar], [do_glob]
    and [exist_only] are false in every call (51-53 assert it) and are left
    out. *)
Definition parse_file_seq (i : span) (strip_dot : bool) (extra : str) : res (list block) :=
  let* r := makefile_whitespace i in
  match r with
  | POk i _ => file_seq_loop (S (sp_len i)) strip_dot extra i []
  | _ => Panic
  end.

(** * src/ast/text_functions.rs *)

(** src/ast/text_functions.rs:82-87: match one token. *)
Definition match_token (pre_key post_key : str) : parser span := fun i =>
  let! (i, _) := tag pre_key i in
  let! (i, captured) := recognize (many1 (take_until post_key)) i in
  let! (i, _) := tag post_key i in
  pok i captured.

(** src/ast/text_functions.rs:75-110: what is pushed for one token. *)
Definition replace_token (token : span) (pre_key post_key : str) (pre_repl post_repl : span)
  (out : block) : res block :=
  if sp_len token <? blen pre_key + blen post_key then push_all_contents out token
  else
    let* r := match_token pre_key post_key token in
    match r with
    | POk rest captured =>
        if negb (sp_len rest =? 0) then push_all_contents out token
        else
          let* out := push_all_contents out pre_repl in
          let* out := push_all_contents out captured in
          push_all_contents out post_repl
    | _ => push_all_contents out token
    end.

(** src/ast/text_functions.rs:62-111.  Every round consumes a character, so
    [fuel] = length + 1 suffices. *)
Fixpoint replacement_loop (fuel : nat) (tokens : span) (pre_key post_key : str)
  (pre_repl post_repl : span) (first : bool) (out : block) : res block :=
  match fuel with
  | 0 => OutOfFuel
  | S fuel' =>
      if 0 <? sp_len tokens then
        let* r := makefile_token tokens in
        match r with
        | POk tokens token =>
            let out := if first then out else block_push out cr_space in
            let* out := replace_token token pre_key post_key pre_repl post_repl out in
            replacement_loop fuel' tokens pre_key post_key pre_repl post_repl false out
        | _ => Panic
        end
      else Ok out
  end.

(** src/ast/text_functions.rs:51-117 [do_replacement]. *)
Definition do_replacement (tokens : span) (sens : list N) (pre_key post_key : str)
  (pre_repl post_repl : span) : res block :=
  let* out := replacement_loop (S (sp_len tokens)) tokens pre_key post_key pre_repl post_repl true
                (Blk sens []) in
  block_simplify out.

(** The stop predicate of src/ast/text_functions.rs:16, 18. *)
Definition is_percent (c : char) : bool := (c =? c_percent)%N.

(** src/ast/text_functions.rs:10-48 [do_subref]. *)
Definition do_subref (sens : list N) (value key repl : block) : res block :=
  let* '(pre_key, r) := makefile_take_until_unquote (block_span key) is_percent in
  match r with
  | Some (_, post_key) =>
      let* '(pre_repl, r) := makefile_take_until_unquote (block_span repl) is_percent in
      let* pk := block_into_string pre_key in
      let* qk := span_into_string post_key in
      match r with
      | Some (_, post_repl) =>
          do_replacement (block_span value) sens pk qk (block_span pre_repl) post_repl
      | None =>
          do_replacement (block_span value) sens pk qk span_empty (block_span pre_repl)
      end
  | None =>
      let* k := block_into_string pre_key in
      do_replacement (block_span value) sens [] k span_empty (block_span repl)
  end.
