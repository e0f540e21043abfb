(** Model of src/parsers/ast/mod.rs (expressions), recipe_line.rs and
    conditional/mod.rs (syntax). *)
From Coq Require Import String ZArith.
From Verif Require Import Base LocModel EvdModel NomModel AstModel ParseModel.
Local Open Scope nat_scope.

(** Character literals of src/parsers/ast/mod.rs and src/parsers/conditional/mod.rs. *)
Definition c_lbrace : char := 123%N.
Definition c_rbrace : char := 125%N.
Definition c_dquote : char := 34%N.
Definition c_squote : char := 39%N.

(** `segments().next().unwrap()` (src/parsers/ast/mod.rs:78, 90). *)
Definition first_segment (i : span) : res located :=
  match span_segs i with
  | (l :: _, _) => Ok l
  | ([], _) => Panic
  end.

(** `for segment in span.segments() { .. push(constant(segment)) }`
    (src/parsers/ast/mod.rs:35-37). *)
Definition constants_of (i : span) : res (list ast) :=
  match span_segs i with
  | (_, true) => Panic
  | (l, false) => Ok (List.map a_constant l)
  end.

(** src/parsers/ast/mod.rs:107-120: find the balancing character; the result is
    the index of the character that closes (or [None] at the end of input).
    [count] is the depth minus one on entry. *)
Fixpoint find_balance (start term : char) (count : nat) (l : list (nat * char)) (boom : bool)
  : res (option nat) :=
  match l with
  | [] => if boom then Panic else Ok None
  | (idx, c) :: l' =>
      if (c =? start)%N then find_balance start term (S count) l' boom
      else if (c =? term)%N then
        match count with
        | 0 => Ok (Some idx)
        | S count' => find_balance start term count' l' boom
        end
      else find_balance start term count l' boom
  end.

(** src/parsers/ast/mod.rs:190-223: scan a function argument. *)
Inductive arg_end := ArgComma (j : nat) | ArgEnd | ArgUnbalanced.
(** src/parsers/ast/mod.rs:190-220. *)
Fixpoint scan_argument (paren curly : nat) (l : list (nat * char)) (boom : bool) : res arg_end :=
  match l with
  | [] => if boom then Panic else Ok ArgEnd
  | (j, c) :: l' =>
      if (c =? c_lparen)%N then scan_argument (S paren) curly l' boom
      else if (c =? c_rparen)%N then
        match paren with
        | S paren' => scan_argument paren' curly l' boom
        | 0 => Ok ArgUnbalanced
        end
      else if (c =? c_lbrace)%N then scan_argument paren (S curly) l' boom
      else if (c =? c_rbrace)%N then
        match curly with
        | S curly' => scan_argument paren curly' l' boom
        | 0 => Ok ArgUnbalanced
        end
      else if (c =? c_comma)%N then
        if (curly =? 0) && (paren =? 0) then Ok (ArgComma j) else scan_argument paren curly l' boom
      else scan_argument paren curly l' boom
  end.

(** src/parsers/ast/mod.rs:182-224 [function_argument].  `many0!` of a parser
    that consumes all blanks is that parser (a further round consumes nothing
    and ends the loop). *)
Definition function_argument : parser span := fun i =>
  let! (i, _) := makefile_whitespace i in
  let '(l, boom) := span_indices i in
  let* e := scan_argument 0 0 l boom in
  match e with
  | ArgUnbalanced => fail_out UnternimatedVariable
  | ArgComma j => let* '(suffix, prefix) := take_split i j in pok suffix prefix
  | ArgEnd => let* '(suffix, prefix) := take_split i (sp_len i) in pok suffix prefix
  end.

(** The message of src/parsers/ast/mod.rs:154. *)
Definition not_a_function_call : string := "not a function call".
(** The comparison of src/parsers/ast/mod.rs:128-131. *)
Definition is_not_a_function_call (k : kind) : bool :=
  match k with
  | KCustom (InternalFailure s) => String.eqb s not_a_function_call
  | _ => false
  end.

Section Functions.
  (** [pa] is [parse_ast] for shorter input. *)
  Context (pa : parser ast).

  (** src/parsers/ast/mod.rs:226-233 [eval]. *)
  Definition fn_eval (loc : location) : parser ast := fun i =>
    let! (i, args) := pa i in pok i (AEval loc args).

  (** src/parsers/ast/mod.rs:235-247 [strip]. *)
  Definition fn_strip (loc : location) : parser ast := fun i =>
    let! (i, arg) := function_argument i in
    if negb (sp_len i =? 0) then fail_out (ExtraArguments "strip")
    else let! (_j, arg) := pa arg in pok i (AStrip loc arg).

  (** src/parsers/ast/mod.rs:249-261 [words]. *)
  Definition fn_words (loc : location) : parser ast := fun i =>
    let! (i, arg) := function_argument i in
    if negb (sp_len i =? 0) then fail_out (ExtraArguments "words")
    else let! (_j, arg) := pa arg in pok i (AWords loc arg).

  (** src/parsers/ast/mod.rs:263-281 [word]. *)
  Definition fn_word (loc : location) : parser ast := fun i =>
    let! (i, index) := function_argument i in
    let* r := pchar c_comma i in
    match r with
    | POk i _ =>
        let! (_j, index) := pa index in
        let! (i, list) := function_argument i in
        if negb (sp_len i =? 0) then fail_out (ExtraArguments "word")
        else let! (_j, list) := pa list in pok i (AWord loc index list)
    | _ => fail_out (InsufficientArguments "word")
    end.

  (** src/parsers/ast/mod.rs:158-170 [func_entry!]. *)
  Definition func_entry (name : string) (f : location -> parser ast) (loc : location) : parser ast :=
    fun i =>
    let! (i, _) := tag (lit name) i in
    let! (i, _) := many1 makefile_whitespace i in
    f loc i.

  (** src/parsers/ast/mod.rs:146-180 [function_call]. *)
  Definition function_call (loc : location) : parser ast :=
    palt
      [ func_entry "eval" fn_eval loc;
        func_entry "strip" fn_strip loc;
        func_entry "words" fn_words loc;
        func_entry "word" fn_word loc;
        fun _ => fail_out (InternalFailure not_a_function_call) ].

  (** src/parsers/ast/mod.rs:95-144 [advanced_var]. *)
  Definition advanced_var (loc : location) (start term : char) : parser ast := fun i =>
    let '(l, boom) := span_indices i in
    let* e := find_balance start term 0 l boom in
    match e with
    | None => fail_out UnternimatedVariable
    | Some split_idx =>
        let* '(i, name_node) := take_split i (split_idx + 1) in
        let* n := usub (sp_len name_node) 1 in
        let name_node := slice_to name_node n in
        let* r := function_call loc name_node in
        match r with
        | PFailure ks =>
            if is_not_a_function_call (error_kind ks) then
              let! (_j, parsed) := pa name_node in pok i (AVar loc parsed)
            else Ok r
        | _ => Ok r
        end
    end.

  (** src/parsers/ast/mod.rs:60-93 [parse_var_ref]. *)
  Definition parse_var_ref (loc : location) : parser ast :=
    palt
      [ pmap (fun _ => a_constant (Located loc [c_dollar])) peof;
        (fun i => let! (i, l) := tag [c_dollar] i in
                  let* s := first_segment l in pok i (a_constant s));
        preceded (pchar c_lparen) (advanced_var loc c_lparen c_rparen);
        preceded (pchar c_rbrace) (advanced_var loc c_lbrace c_rbrace);
        (fun i => let! (i, l) := ptake 1 i in
                  let* s := first_segment l in pok i (AVar loc (a_constant s))) ].

  (** src/parsers/ast/mod.rs:25-33: the text up to the next dollar sign and the
      location of the dollar sign. *)
  Definition until_dollar : parser (span * option location) :=
    palt
      [ (fun i => let! (i, start) := take_until [c_dollar] i in
                  let! (i, dollar) := tag [c_dollar] i in
                  let* l := span_location dollar in
                  let* l := unwrap l in
                  pok i (start, Some l));
        pmap (fun l => (l, None)) prest ].

  (** src/parsers/ast/mod.rs:24-52.  Every round but the last consumes a dollar
      sign, so [fuel] = length + 1 suffices. *)
  Fixpoint parse_ast_loop (fuel : nat) (i : span) (acc : list ast) : res (presult (list ast)) :=
    match fuel with
    | 0 => OutOfFuel
    | S fuel' =>
        if 0 <? sp_len i then
          let! (i, out) := until_dollar i in
          let* cs := constants_of (fst out) in
          match snd out with
          | None => pok i (acc ++ cs)
          | Some dl =>
              let! (i, child) := parse_var_ref dl i in
              parse_ast_loop fuel' i (acc ++ cs ++ [child])
          end
        else pok i acc
    end.

  (** src/parsers/ast/mod.rs:14-58 [parse_ast]. *)
  Definition parse_ast_step : parser ast := fun i =>
    let* l := span_location i in
    match l with
    | None => pok i a_empty
    | Some start =>
        let! (i, nodes) := parse_ast_loop (S (sp_len i)) i [] in
        pok i (collapsing_concat start nodes)
    end.
End Functions.

(** src/parsers/ast/mod.rs:14-58 [parse_ast].  The recursion [parse_ast] ->
    [parse_var_ref] -> [advanced_var] -> [parse_ast] is on shorter input, so [fuel] = length + 1 suffices. *)
Fixpoint parse_ast_fuel (fuel : nat) : parser ast :=
  match fuel with
  | 0 => fun _ => OutOfFuel
  | S fuel' => parse_ast_step (parse_ast_fuel fuel')
  end.
(** src/parsers/ast/mod.rs:14-58 [parse_ast]. *)
Definition parse_ast : parser ast := fun i => parse_ast_fuel (S (sp_len i)) i.

(** * src/parsers/recipe_line.rs *)

(** src/parsers/recipe_line.rs:16-24 [grab_command_line!]. *)
Definition grab_command_line (command_char : char) : parser (span * line_end) :=
  preceded (pchar command_char) makefile_grab_line.

(** src/parsers/recipe_line.rs:43-67.  [lift_collapsed_span_error] only changes
    spans in errors.  Each round consumes the command character. *)
Fixpoint recipe_loop (fuel : nat) (command_char : char) (i : span) (line : block) : res (presult ast) :=
  match fuel with
  | 0 => OutOfFuel
  | S fuel' =>
      let finish (i : span) (line : block) :=
        let! (_j, a) := parse_ast (block_span line) in pok i a in
      let* n := ends_with_backslash (block_span line) in
      if Nat.odd n then
        let line := block_push line cr_newline in
        let* r := grab_command_line command_char i in
        match r with
        | POk i (next_line, reason) =>
            let* c := to_content_reference next_line in
            let line := block_push line c in
            match reason with
            | LEComment => finish i line
            | _ => recipe_loop fuel' command_char i line
            end
        | _ => finish i line
        end
      else finish i line
  end.

(** src/parsers/recipe_line.rs:12-68 [recipe_line]. *)
Definition recipe_line (command_char : char) : parser ast := fun i =>
  let! (i, out) := add_return_error RecipeExpected (grab_command_line command_char) i in
  match snd out with
  | LEComment => let! (_j, a) := parse_ast (fst out) in pok i a
  | _ =>
      let* line := to_new_block (fst out) in
      recipe_loop (S (sp_len i)) command_char i line
  end.

(** * src/parsers/conditional/mod.rs, syntax *)

(** src/parsers/conditional/mod.rs:16-23 [Conditional]. *)
Inductive conditional :=
| CIfDef (a : ast)
| CIfNDef (a : ast)
| CIfEq (a b : ast)
| CIfNEq (a b : ast)
| CElse (followup : option conditional)
| CEndIf.

(** src/parsers/conditional/mod.rs:124-132 [ConditionalType]. *)
Inductive conditional_type := CtIfDef | CtIfNDef | CtIfEq | CtIfNEq | CtElse | CtEndIf.

(** src/parsers/conditional/mod.rs:214-225: find the terminator outside
    parentheses. *)
Fixpoint find_terminator (terminator : char) (count : Z) (l : list (nat * char)) (boom : bool)
  : res (option nat) :=
  match l with
  | [] => if boom then Panic else Ok None
  | (i, c) :: l' =>
      if (c =? c_lparen)%N then find_terminator terminator (count + 1) l' boom
      else if (c =? c_rparen)%N then
        if (c =? terminator)%N && (count - 1 <? 0)%Z then Ok (Some i)
        else find_terminator terminator (count - 1) l' boom
      else if (c =? terminator)%N && (count <=? 0)%Z then Ok (Some i)
      else find_terminator terminator count l' boom
  end.

(** src/parsers/conditional/mod.rs:206-252 [take_till_terminator]. *)
Definition take_till_terminator (terminator : char) : parser span := fun line =>
  if ((terminator =? c_comma) || (terminator =? c_rparen))%N then
    let '(l, boom) := span_indices line in
    let* found := find_terminator terminator 0 l boom in
    match found with
    | None => error_out BadIfEqSeparator
    | Some i =>
        let r := slice_to line i in
        let* line := slice_from line i in
        let! (line, _) := pchar terminator line in
        pok line r
    end
  else terminated (take_till (fun c => (c =? terminator)%N)) (pchar terminator) line.

(** src/parsers/conditional/mod.rs:203-290 [parse_ifeq]. *)
Definition parse_ifeq : parser (ast * ast) := fun line =>
  let! (line, term) :=
    palt [ pmap (fun _ => c_comma) (pchar c_lparen);
           pmap (fun _ => c_dquote) (pchar c_dquote);
           pmap (fun _ => c_squote) (pchar c_squote) ] line in
  let! (line, arg1) := take_till_terminator term line in
  let! (_j, arg1) := parse_ast arg1 in
  let! (line, _) := makefile_whitespace line in
  let! (line, term) :=
    (if (term =? c_comma)%N then pok line c_rparen
     else palt [ pmap (fun _ => c_dquote) (pchar c_dquote);
                 pmap (fun _ => c_squote) (pchar c_squote) ] line) in
  let! (line, arg2) := take_till_terminator term line in
  let! (_j, arg2) := parse_ast arg2 in
  pok line (arg1, arg2).

(** src/parsers/conditional/mod.rs:133-153: the keyword. *)
Definition conditional_keyword : parser conditional_type :=
  preceded makefile_whitespace
    (add_return_error ConditionalExpected
      (terminated
        (palt [ pmap (fun _ => CtIfDef) (tag_no_case (lit "ifdef"));
                pmap (fun _ => CtIfNDef) (tag_no_case (lit "ifndef"));
                pmap (fun _ => CtIfEq) (tag_no_case (lit "ifeq"));
                pmap (fun _ => CtIfNEq) (tag_no_case (lit "ifneq"));
                pmap (fun _ => CtElse) (tag_no_case (lit "else"));
                pmap (fun _ => CtEndIf) (tag_no_case (lit "endif")) ])
        makefile_whitespace)).

(** src/parsers/conditional/mod.rs:294-326 [parse_else]; [pl] is
    [parse_line_internal] for shorter input. *)
Definition parse_else (pl : parser conditional) : parser (option conditional) := fun input =>
  let! (input, _) := makefile_whitespace input in
  if 0 <? sp_len input then
    let! (input, cond) := return_error (ExtraTokensAfter "else") pl input in
    match cond with
    | CIfDef _ | CIfNDef _ | CIfEq _ _ | CIfNEq _ _ => pok input (Some cond)
    | _ => fail_out (ExtraTokensAfter "else")
    end
  else pok input None.

(** src/parsers/conditional/mod.rs:121-200 [parse_line_internal].  The recursion
    through [parse_else] consumes the keyword. *)
Fixpoint conditional_line_fuel (fuel : nat) : parser conditional := fun input =>
  match fuel with
  | 0 => OutOfFuel
  | S fuel' =>
      let! (input, tag) := conditional_keyword input in
      match tag with
      | CtIfDef | CtIfNDef =>
          let! (input, rest) := return_error MalformedIfDef parse_ast input in
          pok input (match tag with CtIfDef => CIfDef rest | _ => CIfNDef rest end)
      | CtIfEq | CtIfNEq =>
          let! (input, args) := parse_ifeq input in
          pok input (match tag with
                     | CtIfEq => CIfEq (fst args) (snd args)
                     | _ => CIfNEq (fst args) (snd args)
                     end)
      | CtElse =>
          let! (input, sub_cond) := parse_else (conditional_line_fuel fuel') input in
          pok input (CElse sub_cond)
      | CtEndIf =>
          if 0 <? sp_len input then fail_out (ExtraTokensAfter "endif") else pok input CEndIf
      end
  end.

(** src/parsers/conditional/mod.rs:106-117 [parse_line]. *)
Definition conditional_parse_line : parser conditional := fun i =>
  conditional_line_fuel (S (sp_len i)) i.
