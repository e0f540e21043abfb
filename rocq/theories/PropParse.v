(** Property theorems about the text-level parsers (C24-C27, C34, C40, C41, C47).
    [span_marks] and [block_marks] (from [EvdSpec]) are the characters of a span
    or block, each with its source location; the specifications are in
    [ParseSpec]. *)
From Coq Require Import String.
From Verif Require Import Base LocModel EvdModel NomModel AstModel ParseModel AstParseModel EngineModel ModelTests EvdSpec
  ParseSpec ParseProofs5 ParseExamples.
Open Scope string_scope.
Open Scope list_scope.

(** C24: for every text and every set of stop characters without backslash and
    NUL, the result is the one [unquote] describes, character by character with
    locations: the text before the stop character, the stop character, the rest. *)
Theorem C24_unquote : forall s stop, wf_span s -> stop c_bslash = false -> stop 0%N = false ->
  exists pre r, makefile_take_until_unquote s stop = Ok (pre, r) /\
    match unquote fst stop [] (span_marks s) with
    | (o, Stopped c rest) => block_marks pre = o /\
        exists sc post, r = Some (sc, post) /\ span_marks sc = [c] /\ span_marks post = rest
    | (o, Ended pend) => block_marks pre = o ++ pend /\ r = None
    end.
Proof. exact unquote_thm. Qed.
Print Assumptions C24_unquote.

(** C24: that is the first stop character preceded by an even number of
    backslashes; if there is none, reading goes on to the end. *)
Theorem C24_stops_at_first_unquoted : forall stop t o e, stop c_bslash = false -> unquote (fun c => c) stop [] t = (o, e) ->
  match e with
  | Stopped c rest => exists pre, t = pre ++ c :: rest /\ stop c = true /\
      Nat.even (tail_backslashes (fun c => c) pre) = true /\
      (forall p d q, pre = p ++ d :: q -> stop d = true -> Nat.even (tail_backslashes (fun c => c) p) = false)
  | Ended _ => forall p d q, t = p ++ d :: q -> stop d = true -> Nat.even (tail_backslashes (fun c => c) p) = false
  end.
Proof. exact unquote_where_thm. Qed.
Print Assumptions C24_stops_at_first_unquoted.

(** C24: with NUL among the stop characters (the file lists) the end of the text
    is a stop character, too; what is kept of backslashes at the very end is
    [final_backslashes]. *)
Theorem C24_unquote_to_end : forall s stop, wf_span s -> stop c_bslash = false -> stop 0%N = true -> 0 < sp_len s ->
  exists pre r, makefile_take_until_unquote s stop = Ok (pre, r) /\
    match unquote fst stop [] (span_marks s) with
    | (o, Stopped c rest) => block_marks pre = o /\ exists sc post, r = Some (sc, post) /\ span_marks post = rest
    | (o, Ended pend) =>
        block_marks pre = o ++ final_backslashes (List.length (span_marks s)) o pend /\
        match r with
        | Some (_, post) => Nat.even (List.length pend) = true /\ span_marks post = []
        | None => Nat.even (List.length pend) = false
        end
    end.
Proof. exact unquote_nul_thm. Qed.
Print Assumptions C24_unquote_to_end.

Example C24_example :
  let s := block_span (text_block (lit "a\b\:c\\:d")) in
  wf_span s /\ unquote fst is_colon [] (List.map (fun m => (fst m, tt)) (span_marks s)) =
    (List.map (fun c => (c, tt)) (lit "a\b:c\"), Stopped (58%N, tt) (List.map (fun c => (c, tt)) (lit "d"))).
Proof. split; [apply text_span_wf; [discriminate|reflexivity]|vm_compute; reflexivity]. Qed.

(** C25: a logical line of text without '#', in both modes: its pieces are joined
    by single spaces, every other character keeps its location, and the rest
    starts right after it. *)
Theorem C25_logical_line : forall mode strip s ls last rest, wf_span s -> ~ has fst c_hash (span_marks s) ->
  logical_line fst (span_marks s) ls last rest ->
  exists r b, makefile_line s mode strip = Ok (POk r b) /\ span_marks r = rest /\
    block_marks b = join (c_space, Synthetic) (pieces fst mode strip ls last).
Proof. exact line_thm. Qed.
Print Assumptions C25_logical_line.

(** C25: every text begins with a logical line. *)
Theorem C25_every_text_has_a_line : forall t : list (char * location), exists ls last rest, logical_line fst t ls last rest.
Proof. exact (ParseProofs2.logical_line_total fst). Qed.
Print Assumptions C25_every_text_has_a_line.

(** C25: a text with '#'. *)
Theorem C25_line_before_comment : forall mode strip s l h t, wf_span s -> span_marks s = l ++ h :: t ->
  ~ has fst c_hash l -> fst h = c_hash ->
  exists r b, makefile_line s mode strip = Ok (POk r b) /\ span_marks r = h :: t /\
    block_marks b = let l' := if strip then lstrip fst l else l in
                    if continued fst l' then clean fst mode l' ++ [(c_space, Synthetic)] else l'.
Proof. exact line_hash_thm. Qed.
Print Assumptions C25_line_before_comment.

Example C25_example :
  let t := lit (esc "a  \~  b \~@c~d") in
  logical_line (fun c => c) t [lit "a  \"; lit "  b \"] (lit (esc "@c")) (lit "d") /\
  join 32%N (pieces (fun c => c) GNU false [lit "a  \"; lit "  b \"] (lit (esc "@c"))) = lit "a b c" /\
  wf_span (block_span (text_block t)).
Proof.
  cbn zeta. split; [|split; [vm_compute; reflexivity|apply text_span_wf; [discriminate|reflexivity]]].
  apply (LL_more _ (lit "a  \") 10%N _ [lit "  b \"]); try reflexivity; [intros (a & I & E); vm_compute in I; subst; vm_compute in I; intuition discriminate|].
  apply (LL_more _ (lit "  b \") 10%N _ []); try reflexivity; [intros (a & I & E); subst; vm_compute in I; intuition discriminate|].
  apply (LL_last _ (lit (esc "@c")) 10%N); try reflexivity. intros (a & I & E); subst; vm_compute in I; intuition discriminate.
Qed.

(** C26 is false: a '#' anywhere later in the file makes the first line swallow
    all lines before it. *)
Theorem C26_line_ends_at_newline_refuted : exists s l n t, wf_span s /\ span_text s = l ++ n :: t /\
  ~ In c_nl l /\ n = c_nl /\
  forall r p reason, makefile_grab_line s = Ok (POk r (p, reason)) -> span_text p <> l.
Proof. exact c26_line_ends_at_newline_witness. Qed.
Print Assumptions C26_line_ends_at_newline_refuted.

(** C26, where it holds: if no '#' follows the first newline, the line ends at
    the first newline or '#'.  Missing: texts with a later '#'. *)
Theorem C26_line_ends_at_newline_partial : forall s l t, wf_span s ->
  span_marks s = l ++ t -> ~ has fst c_nl l -> ~ has fst c_hash l ->
  match t with
  | [] => True
  | c :: t' => fst c = c_hash \/ fst c = c_nl /\ ~ has fst c_hash t'
  end ->
  exists r p reason, makefile_grab_line s = Ok (POk r (p, reason)) /\ span_marks p = l /\
    span_marks r = match t with [] => [] | c :: t' => if (fst c =? c_hash)%N then t else t' end.
Proof. exact grab_partial. Qed.
Print Assumptions C26_line_ends_at_newline_partial.

(** C26, what happens in all cases: the line is everything before the first '#'
    of the text, or else everything before the first newline, or all. *)
Theorem C26_what_is_grabbed : forall s, wf_span s ->
  (forall l h t, span_marks s = l ++ h :: t -> ~ has fst c_hash l -> fst h = c_hash ->
     exists r p, makefile_grab_line s = Ok (POk r (p, LEComment)) /\ span_marks p = l /\ span_marks r = h :: t) /\
  (forall l n t, span_marks s = l ++ n :: t -> ~ has fst c_hash (span_marks s) -> ~ has fst c_nl l -> fst n = c_nl ->
     exists r p, makefile_grab_line s = Ok (POk r (p, LELineBreak)) /\ span_marks p = l /\ span_marks r = t) /\
  (~ has fst c_hash (span_marks s) -> ~ has fst c_nl (span_marks s) ->
     exists r, makefile_grab_line s = Ok (POk r (s, LEEOF)) /\ span_marks r = []).
Proof. exact grab_exact. Qed.
Print Assumptions C26_what_is_grabbed.

Example C26_example :
  let s := block_span (text_block (lit (esc "x = 1 # one~y"))) in
  exists l c t, span_marks s = l ++ c :: t /\ ~ has fst c_nl l /\ ~ has fst c_hash l /\ fst c = c_hash /\
    List.map fst l = lit "x = 1 ".
Proof.
  cbn zeta. set (m := span_marks _). exists (firstn 6 m), (nth 6 m (0%N, Synthetic)), (skipn 7 m). split; [vm_compute; reflexivity|].
  split; [intros (a & I & E); vm_compute in I, E; intuition subst; discriminate|].
  split; [intros (a & I & E); vm_compute in I, E; intuition subst; discriminate|].
  split; reflexivity.
Qed.

(** C27 is false: the carriage return stays in the line. *)
Theorem C27_crlf_like_lf_refuted : exists s1 s2 r1 b1 r2 b2, wf_span s1 /\ wf_span s2 /\
  span_text s1 = lit "x = a" ++ [c_cr; c_nl] /\ span_text s2 = lit "x = a" ++ [c_nl] /\
  makefile_line s1 GNU true = Ok (POk r1 b1) /\ makefile_line s2 GNU true = Ok (POk r2 b2) /\
  block_text b1 <> block_text b2.
Proof. exact c27_crlf_like_lf_witness. Qed.
Print Assumptions C27_crlf_like_lf_refuted.

(** C27, what is true: the lines are divided at the same places, but each keeps
    the carriage return as its last character (and so is never continued).
    Missing: that the carriage return is dropped. *)
Theorem C27_crlf_line_partial : forall mode strip s l cr nl rest, wf_span s -> ~ has fst c_hash (span_marks s) ->
  span_marks s = l ++ cr :: nl :: rest -> ~ has fst c_nl l -> fst cr = c_cr -> fst nl = c_nl ->
  exists r b, makefile_line s mode strip = Ok (POk r b) /\ span_marks r = rest /\
    block_marks b = (if strip then lstrip fst l else l) ++ [cr].
Proof. exact crlf_line. Qed.
Print Assumptions C27_crlf_line_partial.

Example C27_example : exists l cr nl rest,
  span_marks (block_span (text_block (lit "x = a" ++ [c_cr; c_nl] ++ lit "y"))) = l ++ cr :: nl :: rest /\
  fst cr = c_cr /\ fst nl = c_nl /\ ~ has fst c_nl l.
Proof.
  set (m := span_marks _). exists (firstn 5 m), (nth 5 m (0%N, Synthetic)), (nth 6 m (0%N, Synthetic)), (skipn 7 m). split; [vm_compute; reflexivity|]. split; [reflexivity|]. split; [reflexivity|].
  intros (a & I & E); vm_compute in I, E; intuition subst; discriminate.
Qed.

(** C34: a name, optional blanks, one of the six operators, optional blanks: the
    operator is recognised, with the name before it and the text after it. *)
Theorem C34_operator_recognised : forall s name bl op k post, wf_span s ->
  span_marks s = name ++ bl ++ op ++ post ->
  (forall a, In a name -> ~ name_end (fst a)) -> (forall a, In a bl -> blank (fst a) = true) ->
  In (List.map fst op, k)
     [(lit "=", AsRecursive); (lit ":=", AsSimple); (lit "::=", AsSimple);
      (lit "?=", AsConditional); (lit "!=", AsBang); (lit "+=", AsAppend)] ->
  exists r nm, parse_assignment_operator s = Ok (POk r (nm, k)) /\ wf_span nm /\ wf_span r /\
    span_marks nm = name /\ span_marks r = lstrip fst post.
Proof. exact assignment_operator_thm. Qed.
Print Assumptions C34_operator_recognised.

(** C34: every other text is rejected. *)
Theorem C34_nothing_else : forall s, wf_span s ->
  (forall name bl op k post, span_marks s = name ++ bl ++ op ++ post ->
    (forall a, In a name -> ~ name_end (fst a)) -> (forall a, In a bl -> blank (fst a) = true) ->
    ~ In (List.map fst op, k)
       [(lit "=", AsRecursive); (lit ":=", AsSimple); (lit "::=", AsSimple);
        (lit "?=", AsConditional); (lit "!=", AsBang); (lit "+=", AsAppend)]) ->
  exists e, parse_assignment_operator s = Ok (PError e).
Proof. exact assignment_operator_no. Qed.
Print Assumptions C34_nothing_else.

Example C34_example : exists name bl op post,
  span_marks (block_span (text_block (lit "x  ::= y"))) = name ++ bl ++ op ++ post /\
  List.map fst name = lit "x" /\ List.map fst bl = lit "  " /\ List.map fst op = lit "::=" /\
  (forall a, In a name -> ~ name_end (fst a)).
Proof.
  set (m := span_marks _). exists (firstn 1 m), (firstn 2 (skipn 1 m)), (firstn 3 (skipn 3 m)), (skipn 6 m). split; [vm_compute; reflexivity|].
  split; [reflexivity|]. split; [reflexivity|]. split; [reflexivity|].
  intros a I. vm_compute in I. destruct I as [<-|I]; [|contradiction]. intros [H|H]; vm_compute in H; intuition discriminate.
Qed.
Example C34_example_no : exists e, parse_assignment_operator (block_span (text_block (lit "x : = y"))) = Ok (PError e).
Proof. eexists. vm_compute. reflexivity. Qed.

(** C40: the words of a text without backslashes are its parts between white
    space (or further stop characters), empty ones dropped, in order, each with
    its "./" cleaned if asked for. *)
Theorem C40_words : forall s strip extra, wf_span s -> ~ In c_bslash extra -> ~ has fst c_bslash (span_marks s) ->
  exists bs, parse_file_seq s strip extra = Ok bs /\ Forall wf_block bs /\
    List.map block_marks bs =
    List.map (fun w => if strip then drop_dot_slash fst w else w) (split_at fst (file_stop extra) [] (span_marks s)).
Proof. exact ParseProofs4.parse_file_seq_plain. Qed.
Print Assumptions C40_words.

(** C40: with backslashes, the words are those of [file_words]: quoted stop
    characters are part of a word, without the quoting backslash. *)
Theorem C40_quoted_words : forall s strip extra ws, wf_span s -> ~ In c_bslash extra ->
  file_words fst (file_stop extra) (lstrip fst (span_marks s)) ws ->
  exists bs, parse_file_seq s strip extra = Ok bs /\ Forall wf_block bs /\
    List.map block_marks bs = List.map (fun w => if strip then drop_dot_slash fst w else w) ws.
Proof. exact ParseProofs4.parse_file_seq_ok. Qed.
Print Assumptions C40_quoted_words.

Theorem C40_every_text_has_words : forall stop (t : list (char * location)), exists ws, file_words fst stop t ws.
Proof. exact (ParseProofs4.file_words_total fst). Qed.
Print Assumptions C40_every_text_has_words.

Example C40_example :
  file_words (fun c => c) (file_stop []) (lit "a\ b  ./c") [lit "a b"; lit "./c"] /\
  split_at (fun c => c) (file_stop []) [] (lit " foo  bar") = [lit "foo"; lit "bar"].
Proof.
  split; [|reflexivity].
  change [lit "a b"; lit "./c"] with (word_and (lit "a b") (word_and [] (word_and (lit "./c" ++ []) []))).
  eapply FW_stop; [vm_compute; reflexivity|]. eapply FW_stop; [vm_compute; reflexivity|].
  apply (FW_end _ _ (lit "./c") (lit "./c") []); [discriminate|vm_compute; reflexivity].
Qed.

(** C41 is false: for `x c:\d: e` the drive's colon ends the target list. *)
Theorem C41_drive_colon_refuted : exists s pre post b r, wf_span s /\
  rule_colon fst (drive fst) (span_marks s) pre (Some post) /\
  find_non_drivespec_colon s = Ok (b, r) /\ block_marks b <> pre.
Proof. exact c41_drive_colon_witness. Qed.
Print Assumptions C41_drive_colon_refuted.

(** C41, where it holds: if no colon is directly followed by a slash or
    backslash.  Missing: drive specifications other than at the start. *)
Theorem C41_colon_partial : forall s pre post, wf_span s ->
  (forall p c d q, span_marks s = p ++ c :: d :: q -> fst c = 58%N -> any_slash (fst d) = false) ->
  rule_colon fst (drive fst) (span_marks s) pre post ->
  exists b r, find_non_drivespec_colon s = Ok (b, r) /\ block_marks b = pre /\ option_map span_marks r = post.
Proof. exact find_colon_partial. Qed.
Print Assumptions C41_colon_partial.

(** C41, what happens in all cases: the documented search, with the two
    characters before the colon exchanged in the test. *)
Theorem C41_what_is_found : forall s pre post, wf_span s -> rule_colon fst (drive_swapped fst) (span_marks s) pre post ->
  exists b r, find_non_drivespec_colon s = Ok (b, r) /\ block_marks b = pre /\ option_map span_marks r = post.
Proof. exact find_colon_ok. Qed.
Print Assumptions C41_what_is_found.

Theorem C41_every_text_has_a_result : forall drv (t : list (char * location)), exists pre post, rule_colon fst drv t pre post.
Proof. exact (rule_colon_total fst). Qed.
Print Assumptions C41_every_text_has_a_result.

Example C41_example : rule_colon (fun c => c) (drive (fun c => c)) (lit "a\:b c: d") (lit "a:b c") (Some (lit " d")) /\
  rule_colon (fun c => c) (drive_swapped (fun c => c)) (lit "c:/x: y") (lit "c:/x") (Some (lit " y")).
Proof.
  split; [eapply RC_found; vm_compute; reflexivity|].
  change (lit "c:/x") with (lit "c" ++ 58%N :: lit "/x").
  apply (RC_drive _ _ _ (lit "c") 58%N (lit "/x: y")); [vm_compute; reflexivity|vm_compute; reflexivity|].
  eapply RC_found; vm_compute; reflexivity.
Qed.

(** C47 is false: a comment hides the lines after it, if a later line has a '#'. *)
Theorem C47_comment_ends_with_its_line_refuted : exists s l t r, wf_span s /\
  span_text s = c_hash :: l ++ c_nl :: t /\ ~ In c_nl l /\ ~ In c_bslash l /\
  parse_comment s = Ok (POk r tt) /\ span_text r <> t.
Proof. exact c47_comment_ends_with_its_line_witness. Qed.
Print Assumptions C47_comment_ends_with_its_line_refuted.

(** C47, what happens in all cases: the comment reaches to the end of the
    logical line that contains the last '#' of the text.  So the comment ends
    with its own line only if no '#' follows. *)
Theorem C47_comment_extent_partial : forall s h t u ls last rest, wf_span s ->
  span_marks s = h :: t ++ u -> fst h = c_hash ->
  match rev t with [] => True | c :: _ => fst c = c_hash end -> ~ has fst c_hash u ->
  logical_line fst u ls last rest ->
  exists r, parse_comment s = Ok (POk r tt) /\ span_marks r = rest.
Proof. exact comment_thm. Qed.
Print Assumptions C47_comment_extent_partial.

Example C47_example : exists h t u,
  span_marks (block_span (text_block (lit (esc "# one~x = 1~# two~y = 2")))) = h :: t ++ u /\ fst h = c_hash /\
  List.map fst t = lit (esc " one~x = 1~#") /\ List.map fst u = lit (esc " two~y = 2") /\
  logical_line (fun c => c) (lit (esc " two~y = 2")) [] (lit " two") (lit "y = 2").
Proof.
  set (m := span_marks _). exists (nth 0 m (0%N, Synthetic)), (firstn 12 (skipn 1 m)), (skipn 13 m). split; [vm_compute; reflexivity|]. split; [reflexivity|]. split; [reflexivity|].
  split; [reflexivity|]. apply (LL_last _ (lit " two") 10%N); try reflexivity.
  intros (a & I & E); subst; vm_compute in I; intuition discriminate.
Qed.
