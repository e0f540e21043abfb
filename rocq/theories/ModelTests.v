(** The repository's own unit tests replayed on the model.  These are tests of
    the model's fidelity, not proofs of properties. *)
From Coq Require Import String Ascii.
From Verif Require Import Base LocModel EvdModel NomModel AstModel ParseModel AstParseModel EngineModel.
Local Open Scope nat_scope.
Local Open Scope string_scope.

(** src/parsers/test/mod.rs [create_span], [leftover_span]. *)
Definition src (s : string) : block :=
  Blk [] [ev_constant (Located (SourceLocation 1 1 0) (lit s))].
Definition at_ (line col : N) (s : string) : located := Located (SourceLocation line col 0) (lit s).

Fixpoint unlit (s : str) : string :=
  match s with [] => EmptyString | c :: s => String (ascii_of_N c) (unlit s) end.

(** `\n` and `\t` in the literals below are written `~` and `@`. *)
Fixpoint esc (s : string) : string :=
  match s with
  | EmptyString => EmptyString
  | String c s' =>
      String (if Ascii.eqb c "~" then ascii_of_nat 10 else if Ascii.eqb c "@" then ascii_of_nat 9 else c)
        (esc s')
  end.
Definition esrc (s : string) : block := src (esc s).

Definition no_files (_ : str) : file := FOpenError 0.
Definition ev0 := eval_fuel no_files 20.

Definition okv {A} (r : res A) : option A := match r with Ok a => Some a | _ => None end.
Definition segs (s : span) : option (list located) :=
  match span_segs s with (l, false) => Some l | _ => None end.
(** The segments of the rest and of the result. *)
Definition rest_segs {A} (r : res (presult A)) : option (list located) :=
  match r with Ok (POk i _) => segs i | _ => None end.
Definition value {A} (r : res (presult A)) : option A :=
  match r with Ok (POk _ a) => Some a | _ => None end.
Definition failed {A} (r : res (presult A)) : option (bool * list kind) :=
  match r with Ok (PError ks) => Some (false, ks) | Ok (PFailure ks) => Some (true, ks) | _ => None end.
Definition bsegs (b : option block) : option (list located) :=
  match b with Some b => segs (block_span b) | None => None end.
Definition str_of (b : block) : option string := option_map unlit (okv (block_into_string b)).

(** ** src/parsers/test/mod.rs *)
Definition line (c : compliance) (strip : bool) (s : string) :=
  let r := makefile_line (block_span (esrc s)) c strip in (rest_segs r, bsegs (value r)).

Example simple :
  List.map (fun '(c, b) => line c b "just a line") [(GNU, false); (GNU, true); (POSIX, false); (POSIX, true)]
  = repeat (Some [], Some [at_ 1 1 "just a line"]) 4.
Proof. vm_compute. reflexivity. Qed.
Example simple_comment : line GNU false "line 1#" = (Some [at_ 1 7 "#"], Some [at_ 1 1 "line 1"]).
Proof. vm_compute. reflexivity. Qed.
Example simple_line_break : line GNU false "line 1~" = (Some [], Some [at_ 1 1 "line 1"]).
Proof. vm_compute. reflexivity. Qed.
Example line_break_stops : line GNU false "line 1~line 2" = (Some [at_ 2 1 "line 2"], Some [at_ 1 1 "line 1"]).
Proof. vm_compute. reflexivity. Qed.
Example simple_collapse :
  line POSIX false "line 1\~line 2" = (Some [], Some [at_ 1 1 "line 1"; Located Synthetic (lit " "); at_ 2 1 "line 2"]).
Proof. vm_compute. reflexivity. Qed.
Example collapse_preserves :
  line GNU false "line 1@\~line 2" = (Some [], Some [at_ 1 1 "line 1"; Located Synthetic (lit " "); at_ 2 1 "line 2"]).
Proof. vm_compute. reflexivity. Qed.
Example strip_initial_works :
  line GNU true " line 1\~@line 2" = (Some [], Some [at_ 1 2 "line 1"; Located Synthetic (lit " "); at_ 2 2 "line 2"]).
Proof. vm_compute. reflexivity. Qed.
Example strip_initial_works_multiple :
  line GNU true "line 1\~@\~line 2" = (Some [], Some [at_ 1 1 "line 1"; Located Synthetic (lit " "); at_ 3 1 "line 2"]).
Proof. vm_compute. reflexivity. Qed.
Example test_simple_end : line POSIX true "\\" = (Some [], Some [at_ 1 1 "\\"]).
Proof. vm_compute. reflexivity. Qed.
Example strip_initial_line_break : line POSIX true " @\~@ a" = (Some [], Some [at_ 2 3 "a"]).
Proof. vm_compute. reflexivity. Qed.
Example conservative_mixed : rest_segs (makefile_whitespace (block_span (esrc " @ a"))) = Some [at_ 1 4 "a"].
Proof. vm_compute. reflexivity. Qed.

(** ** src/parsers/ast/test *)
Definition past (s : string) := let r := parse_ast (block_span (src s)) in (rest_segs r, value r).
Definition loc (l c : N) := SourceLocation l c 0.
Definition con (l c : N) (s : string) := a_constant (at_ l c s).

Example ast_simple : past "ab" = (Some [], Some (con 1 1 "ab")).
Proof. vm_compute. reflexivity. Qed.
Example single_char_ref : past "$a" = (Some [], Some (AVar (loc 1 1) (con 1 2 "a"))).
Proof. vm_compute. reflexivity. Qed.
Example dollar_at_end : past "$" = (Some [], Some (con 1 1 "$")).
Proof. vm_compute. reflexivity. Qed.
Example dollar_escape : past "$$" = (Some [], Some (con 1 2 "$")).
Proof. vm_compute. reflexivity. Qed.
Example long_var_name : past "$(foo)" = (Some [], Some (AVar (loc 1 1) (con 1 3 "foo"))).
Proof. vm_compute. reflexivity. Qed.
Example recursive_variable_expansion :
  past "$($(foo))" = (Some [], Some (AVar (loc 1 1) (AVar (loc 1 3) (con 1 5 "foo")))).
Proof. vm_compute. reflexivity. Qed.
Example unbalanced_reference :
  option_map (fun e => existsb is_unterminated (snd e)) (failed (parse_ast (block_span (src "$(foo")))) = Some true.
Proof. vm_compute. reflexivity. Qed.
Example strip_basic : past "$(strip foo)" = (Some [], Some (AStrip (loc 1 1) (con 1 9 "foo"))).
Proof. vm_compute. reflexivity. Qed.
Example strip_too_many :
  failed (parse_ast (block_span (src "$(strip foo,extra)"))) <> None /\ past "$(strip foo,extra)" = (None, None).
Proof. vm_compute. split; [discriminate | reflexivity]. Qed.
Example word_basic :
  past "$(word 1,foo)" = (Some [], Some (AWord (loc 1 1) (con 1 8 "1") (con 1 10 "foo"))).
Proof. vm_compute. reflexivity. Qed.
Example word_too_few : failed (parse_ast (block_span (src "$(word 1)"))) <> None.
Proof. vm_compute. discriminate. Qed.
Example word_too_many : failed (parse_ast (block_span (src "$(word 1,foo,extra)"))) <> None.
Proof. vm_compute. discriminate. Qed.
Example words_basic : past "$(words foo bar)" = (Some [], Some (AWords (loc 1 1) (con 1 9 "foo bar"))).
Proof. vm_compute. reflexivity. Qed.

Definition farg (s : string) :=
  let r := function_argument (block_span (src s)) in
  (rest_segs r, match value r with Some s => segs s | None => None end).
Example terminated_with_comma : farg "foo," = (Some [at_ 1 4 ","], Some [at_ 1 1 "foo"]).
Proof. vm_compute. reflexivity. Qed.
Example ignores_internal_commas : farg "$(some_func a,b)" = (Some [], Some [at_ 1 1 "$(some_func a,b)"]).
Proof. vm_compute. reflexivity. Qed.
Example ignores_internal_commas_curly : farg "${some_func a,b}" = (Some [], Some [at_ 1 1 "${some_func a,b}"]).
Proof. vm_compute. reflexivity. Qed.

(** ** src/parsers/conditional/test *)
Definition simple_line (s : string) : block :=
  match makefile_line (block_span (esrc s)) GNU false with Ok (POk _ b) => b | _ => block_empty end.
Definition pifeq (s : string) := value (parse_ifeq (block_span (simple_line s))).
Definition pcond (s : string) := value (conditional_parse_line (block_span (src s))).

Example parens_simple : pifeq "(a, b)" = Some (con 1 2 "a", con 1 5 "b").
Proof. vm_compute. reflexivity. Qed.
Example parens_nested :
  pifeq "($(foo_$(bar)), $(baz)_$(qux_$(big)))" =
  Some (AVar (loc 1 2) (AConcat (loc 1 4) [con 1 4 "foo_"; AVar (loc 1 8) (con 1 10 "bar")]),
        AConcat (loc 1 17) [AVar (loc 1 17) (con 1 19 "baz"); con 1 23 "_";
                            AVar (loc 1 24) (AConcat (loc 1 26) [con 1 26 "qux_"; AVar (loc 1 30) (con 1 32 "big")])]).
Proof. vm_compute. reflexivity. Qed.
Example dquotes_simple : pifeq """a"" ""b""" = Some (con 1 2 "a", con 1 6 "b").
Proof. vm_compute. reflexivity. Qed.
Example quotes_simple : pifeq "'a' 'b'" = Some (con 1 2 "a", con 1 6 "b").
Proof. vm_compute. reflexivity. Qed.
Example quotes_mixed : pifeq "'a' ""b""" = Some (con 1 2 "a", con 1 6 "b").
Proof. vm_compute. reflexivity. Qed.
Example bad_separator : pifeq "asdf" = None.
Proof. vm_compute. reflexivity. Qed.
Example else_simple : pcond "else" = Some (CElse None).
Proof. vm_compute. reflexivity. Qed.
Example else_ifdef : pcond "else ifdef a" = Some (CElse (Some (CIfDef (con 1 12 "a")))).
Proof. vm_compute. reflexivity. Qed.
Example rejects_non_if : failed (conditional_parse_line (block_span (src "else asdf"))) <> None.
Proof. vm_compute. discriminate. Qed.
Example endif_simple : pcond "endif" = Some CEndIf.
Proof. vm_compute. reflexivity. Qed.
Example extra_tokens : failed (conditional_parse_line (block_span (src "endif fdsa"))) <> None.
Proof. vm_compute. discriminate. Qed.
Example ifdef_simple : pcond "ifdef a" = Some (CIfDef (con 1 7 "a")).
Proof. vm_compute. reflexivity. Qed.
Example multiple_whitespace :
  match makefile_line (block_span (esrc "ifndef @\~@ a")) GNU true with
  | Ok (POk _ b) => value (conditional_parse_line (block_span b))
  | _ => None
  end = Some (CIfNDef (con 2 3 "a")).
Proof. vm_compute. reflexivity. Qed.
Example rejects_non_keywords :
  option_map fst (failed (conditional_parse_line (block_span (src "this is not a conditional")))) = Some false.
Proof. vm_compute. reflexivity. Qed.

(** ** src/parsers/recipe_line.rs, comment.rs *)
Definition recipe (s : string) :=
  let r := recipe_line c_tab (block_span (esrc s)) in (rest_segs r, value r).
Example single_line : recipe "@a~" = (Some [], Some (con 1 2 "a")).
Proof. vm_compute. reflexivity. Qed.
Example recipe_at_eof : recipe "@a" = (Some [], Some (con 1 2 "a")).
Proof. vm_compute. reflexivity. Qed.
Example multi_line_cont :
  recipe "@a\~@b" =
  (Some [], Some (AConcat (loc 1 2) [con 1 2 "a\"; a_constant (Located Synthetic (lit (esc "~"))); con 2 2 "b"])).
Proof. vm_compute. reflexivity. Qed.
Example multi_line_not_cont : recipe "@a~@b" = (Some [at_ 2 1 (esc "@b")], Some (con 1 2 "a")).
Proof. vm_compute. reflexivity. Qed.
Example multi_line_not_command : recipe "@a~~" = (Some [at_ 2 1 (esc "~")], Some (con 1 2 "a")).
Proof. vm_compute. reflexivity. Qed.
Example multi_line_but_comment : recipe "@a # ~~" = (Some [at_ 1 4 (esc "# ~~")], Some (con 1 2 "a ")).
Proof. vm_compute. reflexivity. Qed.
Example does_not_match_no_prefix :
  failed (recipe_line c_tab (block_span (src "this is not a recipe line"))) <> None.
Proof. vm_compute. discriminate. Qed.

Definition comment (s : string) := rest_segs (parse_comment (block_span (esrc s))).
Example comment_single : comment "# this is a single line comment~a" = Some [at_ 2 1 "a"].
Proof. vm_compute. reflexivity. Qed.
Example comment_with_hashes : comment "# this comment has hashes # oh no~a" = Some [at_ 2 1 "a"].
Proof. vm_compute. reflexivity. Qed.
Example multi_line_comment : comment "# this comment \~has line breaks\~oh no~a" = Some [at_ 4 1 "a"].
Proof. vm_compute. reflexivity. Qed.
Example preceding_spaces :
  rest_segs (parse_comment_following_whitespace (block_span (esrc " @# this comment \nhas line breaks\~oh no~a")))
  = Some [at_ 3 1 "a"].
Proof. vm_compute. reflexivity. Qed.

(** ** src/parsers/variable/test *)
Definition pvar (s : string) :=
  match variable_parse_line ev0 world_new (block_span (src s)) with
  | Ok (w, POk i (VariableAction n m (VDefine p))) =>
      Some (sp_len i, v_flavor p, m_export m, option_map unlit (nth_error (n_vars (w_names w)) (N.to_nat n)))
  | _ => None
  end.
Example pvars :
  List.map pvar ["a := b"; "a ::= b"; "a:= b"; "a::= b"; "a = b"; "a= b"; "export a = b";
                 "define foo ="; "define foo bar"; "define foo ::="; "define foo bar :="; "export private"] =
  [Some (0, FlSimple, false, Some "a"); Some (0, FlSimple, false, Some "a");
   Some (0, FlSimple, false, Some "a"); Some (0, FlSimple, false, Some "a");
   Some (0, FlRecursive, false, Some "a"); Some (0, FlRecursive, false, Some "a");
   Some (0, FlRecursive, true, Some "a");
   Some (0, FlRecursive, false, Some "foo"); Some (0, FlRecursive, false, Some "foo bar");
   Some (0, FlSimple, false, Some "foo"); Some (0, FlRecursive, false, Some "foo bar :="); None].
Proof. vm_compute. reflexivity. Qed.

(** ** src/parsers/targets/test *)
Definition ptarget (s : string) :=
  match target_parse_line ev0 world_new (block_span (src s)) with
  | Ok (_, POk r (TNewRule t d dc c)) =>
      Some (List.map (fun b => segs (block_span b)) t, List.map (fun b => segs (block_span b)) d, dc, c)
  | _ => None
  end.
Example tricky_colon_escapes : ptarget "\\:\:" = Some ([Some [at_ 1 1 "\"]], [Some [at_ 1 5 ":"]], false, None).
Proof. vm_compute. reflexivity. Qed.
Example backslash_in_target : ptarget "\\ : \\\;" = Some ([Some [at_ 1 1 "\"]], [Some [at_ 1 9 ";"]], false, None).
Proof. vm_compute. reflexivity. Qed.
Example backslash_at_end_of_input : ptarget "\\ : \\" = Some ([Some [at_ 1 1 "\"]], [Some [at_ 1 6 "\"]], false, None).
Proof. vm_compute. reflexivity. Qed.
Example semicolon_as_target_with_command :
  ptarget "\\\; : a;b" = Some ([Some [at_ 1 1 "\"; at_ 1 4 ";"]], [Some [at_ 1 8 "a"]], false, Some (con 1 10 "b")).
Proof. vm_compute. reflexivity. Qed.
Example colon_as_target_with_command :
  ptarget "\: : \\\;;b" = Some ([Some [at_ 1 2 ":"]], [Some [at_ 1 6 "\"; at_ 1 9 ";"]], false, Some (con 1 11 "b")).
Proof. vm_compute. reflexivity. Qed.
Example mixed_semicolon_target :
  ptarget "\\\; a :: a" =
  Some ([Some [at_ 1 1 "\"; at_ 1 4 ";"]; Some [at_ 1 6 "a"]], [Some [at_ 1 11 "a"]], true, None).
Proof. vm_compute. reflexivity. Qed.
Example command_simple : ptarget "a : a;b" = Some ([Some [at_ 1 1 "a"]], [Some [at_ 1 5 "a"]], false, Some (con 1 7 "b")).
Proof. vm_compute. reflexivity. Qed.
Example command_dcolon : ptarget "a :: a;b" = Some ([Some [at_ 1 1 "a"]], [Some [at_ 1 6 "a"]], true, Some (con 1 8 "b")).
Proof. vm_compute. reflexivity. Qed.
Example escaped_colon_target : ptarget "\: :: a" = Some ([Some [at_ 1 2 ":"]], [Some [at_ 1 7 "a"]], true, None).
Proof. vm_compute. reflexivity. Qed.

Definition mw (s : string) :=
  match next_mword (block_span (src s)) with
  | Ok (POk r (_, e)) => Some (option_map unlit (okv (span_into_string r)), e)
  | _ => None
  end.
Example mword_early_outs :
  List.map mw [":"; "="; ":="; "::="; "::"; "+="; "?="; "!="] =
  [Some (Some "", MwColon); Some (Some "", MwVarAssign); Some (Some "", MwVarAssign); Some (Some "", MwVarAssign);
   Some (Some "", MwDColon); Some (Some "", MwVarAssign); Some (Some "", MwVarAssign); Some (Some "", MwVarAssign)].
Proof. vm_compute. reflexivity. Qed.
Example mword_vars :
  List.map mw ["$$"; "$$a"; "$a"; "$(a)"; "${a}"; "a="; "$$="; "a?="; "$(a)?="; "a+="; "$(a)+="] =
  [Some (Some "", MwStatic); Some (Some "", MwStatic); Some (Some "", MwVariable); Some (Some "", MwVariable);
   Some (Some "", MwVariable); Some (Some "=", MwStatic); Some (Some "=", MwStatic); Some (Some "?=", MwStatic);
   Some (Some "?=", MwVariable); Some (Some "+=", MwStatic); Some (Some "+=", MwVariable)].
Proof. vm_compute. reflexivity. Qed.

(** ** src/ast/test.rs *)
Fixpoint define_all (w : world) (defs : list string) : world :=
  match defs with
  | [] => w
  | d :: defs =>
      match variable_parse_line ev0 w (block_span (Blk [] [ev_constant (at_ 2 1 d)])) with
      | Ok (w, POk _ (VariableAction n _ (VDefine p))) => define_all (set_db w (set_variable (w_db w) n p)) defs
      | _ => w
      end
  end.
Definition eval_in (defs : list string) (s : string) :=
  match value (parse_ast (block_span (src s))) with
  | Some a => match ev0 (define_all world_new defs) a with Ok (_, b) => Some b | _ => None end
  | None => None
  end.
Definition one (l : located) : block := Blk [] [ev_constant l].

Example var_ref_simple :
  eval_in ["foo := bar"] "$(foo)" = Some (Blk [0%N] [ev_variable_reference (one (at_ 1 3 "foo")) (one (at_ 2 8 "bar"))]).
Proof. vm_compute. reflexivity. Qed.
Example var_ref_substitution :
  option_map (fun b => (b_sens b, segs (block_span b))) (eval_in ["foo := a.c"] "$(foo:.c=.o)") =
  Some ([0%N], Some [at_ 2 8 "a"; at_ 1 10 ".o"]).
Proof. vm_compute. reflexivity. Qed.
Example var_ref_substitution_extra_equals :
  option_map (fun b => segs (block_span b)) (eval_in ["foo := a.c="] "$(foo:.c==.o)") =
  Some (Some [at_ 2 8 "a"; at_ 1 11 ".o"]).
Proof. vm_compute. reflexivity. Qed.
Example var_ref_substitution_pre_key :
  option_map (fun b => segs (block_span b)) (eval_in ["foo := abc"] "$(foo:a%c=%)") = Some (Some [at_ 2 9 "b"]).
Proof. vm_compute. reflexivity. Qed.
Example var_ref_substitution_pre_both :
  option_map (fun b => segs (block_span b)) (eval_in ["foo := abc"] "$(foo:a%c=d%f)") =
  Some (Some [at_ 1 11 "d"; at_ 2 9 "b"; at_ 1 13 "f"]).
Proof. vm_compute. reflexivity. Qed.
Example var_ref_substitution_multiple :
  option_map (fun b => segs (block_span b)) (eval_in ["foo := 1.c 2.c"] "$(foo:.c=.o)") =
  Some (Some [at_ 2 8 "1"; at_ 1 10 ".o"; Located Synthetic (lit " "); at_ 2 12 "2"; at_ 1 10 ".o"]).
Proof. vm_compute. reflexivity. Qed.
Example var_ref_recursive :
  eval_in ["foo := bar"; "bar := baz"] "$($(foo))" =
  Some (Blk [0%N; 1%N]
          [ev_variable_reference
             (Blk [0%N] [ev_variable_reference (one (at_ 1 5 "foo")) (one (at_ 2 8 "bar"))])
             (one (at_ 2 8 "baz"))]).
Proof. vm_compute. reflexivity. Qed.

(** ** src/parsers/test/end_to_end.rs and tests/ *)
Definition expand_name (fs : str -> file) (w : world) (v : string) : option string :=
  match variable_name (w_names w) (lit v) with
  | Some i =>
      match get_variable (w_db w) i with
      | Some p => match expand fs 30 w p with Ok (_, s) => Some (unlit s) | _ => None end
      | None => None
      end
  | None => None
  end.
Definition run (fs : str -> file) (text : string) (v : string) : option string :=
  match read_makefile fs 30 world_new (lit "f.mk") (inr (lit (esc text))) with
  | Ok (w, MOk) => expand_name fs w v
  | _ => None
  end.

Example simple_conditional :
  run no_files "~foo := bar~ifeq ($(foo),bar)~    baz := correct~else~    baz := incorrect~endif~" "baz" = Some "correct".
Proof. vm_compute. reflexivity. Qed.
Example simple_append : run no_files "~foo := bar~foo += baz~" "foo" = Some "bar baz".
Proof. vm_compute. reflexivity. Qed.
Example simple_multiline_define :
  run no_files "~define foo~  bar \\~  baz~endef~" "foo" = Some (esc "  bar \\~  baz~").
Proof. vm_compute. reflexivity. Qed.
Example simple_eval :
  run no_files
    "define fragment~ foo := bar~endef~~foo := baz~~$(eval $(fragment))~~default:~@@echo $(foo)~~.PHONY: default~" "foo"
  = Some "bar".
Proof. vm_compute. reflexivity. Qed.
Example simple_includes :
  run (fun n => if str_eqb n (lit "include1.mk") then FText (lit (esc "foo := baz~")) else FOpenError 2)
    "foo := bar~~include include1.mk~" "foo" = Some "baz".
Proof. vm_compute. reflexivity. Qed.
