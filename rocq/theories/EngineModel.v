(** Model of the engine: src/lib.rs [Engine], src/ast/mod.rs [eval],
    src/parsers/mod.rs [ParserState], and the parsers and handlers of
    variable/mod.rs, directives/mod.rs, targets/mod.rs and conditional/mod.rs
    that evaluate expressions. *)
From Coq Require Import String.
From Verif Require Import Base LocModel EvdModel NomModel AstModel ParseModel AstParseModel.
Local Open Scope nat_scope.

(** The mutable state: the name cache and the parts of src/lib.rs:469-488
    [Engine] that are used (`vpaths`, `patterned_vpaths` never are). *)
Record world := World { w_names : names; w_db : db; w_cmd : char }.

(** Updates of the state of src/lib.rs:469-488 through `&mut`. *)
Definition set_names (w : world) (n : names) : world := World n (w_db w) (w_cmd w).
Definition set_db (w : world) (d : db) : world := World (w_names w) d (w_cmd w).

(** `names.intern_variable_name(..)` (src/lib.rs:457-460). *)
Definition world_intern_variable (w : world) (s : str) : world * N :=
  let '(n, i) := intern_variable_name (w_names w) s in (set_names w n, i).

(** The files, by the name given in an include directive (joined by the code to
    the working directory, src/parsers/directives/mod.rs:63-76): opening fails, reading fails, or the contents. *)
Inductive file := FOpenError (k : N) | FReadError (k : N) | FText (s : str).

(** src/lib.rs:402-407 [MakefileError] in `Result<(), MakefileError>`. *)
Inductive mresult := MOk | MIOError (k : N) | MParseError (k : pekind).

(** `?` on the `IResult` of a parser that also uses the name cache and the engine
    (Rust and nom). *)
Definition wbind {A B} (w : world) (r : res (presult A)) (f : span -> A -> res (world * presult B))
  : res (world * presult B) :=
  let* r := r in
  match r with
  | POk i a => f i a
  | PError ks => Ok (w, PError ks)
  | PFailure ks => Ok (w, PFailure ks)
  end.
(** Returning an `IResult` (nom) with the name cache and the engine. *)
Definition wret {A} (w : world) (r : presult A) : res (world * presult A) := Ok (w, r).

(** * src/ast/mod.rs, evaluation *)

(** src/ast/mod.rs:127-131 [colon_find]. *)
Definition colon_find : parser (span * span) := fun i =>
  let! (i, name) := recognize (many1 (take_until_and_consume [c_colon])) i in
  let! (i, key) := recognize (many1 (take_until_and_consume [c_eq])) i in
  pok i (name, key).

(** src/ast/mod.rs:136-138: drop the last byte. *)
Definition drop_last_byte (s : span) : res span :=
  let* n := usub (sp_len s) 1 in Ok (slice_to s n).

Section Eval.
  (** [ev] evaluates the value of a variable, [pb] processes the text of an
      `$(eval)`. *)
  Context (ev : world -> ast -> res (world * block)).
  Context (pb : world -> block -> res (world * mresult)).

  (** src/ast/mod.rs:93-107 [deref_variable!]. *)
  Definition deref_variable (w : world) (sens : list N) (name : str) : res (world * list N * block) :=
    let '(w, id) := world_intern_variable w name in
    match get_variable (w_db w) id with
    | Some v =>
        let* '(w, value) := ev w (v_ast v) in
        Ok (w, set_add id (set_union sens (b_sens value)), value)
    | None => Ok (w, set_add id sens, block_empty)
    end.

  (** src/ast/mod.rs:55-191 [eval_internal] (and 48-52 [eval], inlined at the
      calls of `eval_subexpr!`). *)
  Fixpoint eval_internal (w : world) (a : ast) {struct a} : res (world * list N * list cref) :=
    match a with
    | AConst _ s => Ok (w, [], [ev_constant s])
    | AConcat _ nodes =>
        (fix go (w : world) (nodes : list ast) (sens : list N) (acc : list cref) :=
           match nodes with
           | [] => Ok (w, sens, acc)
           | n :: nodes' =>
               let* '(w, s, c) := eval_internal w n in
               go w nodes' (set_union sens s) (acc ++ c)
           end) w nodes [] []
    | APre _ b => Ok (w, [], b_content b)
    | AVar _ name =>
        let* '(w, s, c) := eval_internal w name in
        let* name := block_new s c in
        let sens := b_sens name in
        let* r := colon_find (block_span name) in
        match r with
        | POk replacement (name, key) =>
            let* name := drop_last_byte name in
            let* name := to_new_block name in
            let* key := drop_last_byte key in
            let* key := to_new_block key in
            let* replacement := to_new_block replacement in
            let* str_name := block_into_string name in
            let* '(w, sens, value) := deref_variable w sens str_name in
            let* value := do_subref sens value key replacement in
            Ok (w, sens, [ev_substitution_reference name key replacement value])
        | _ =>
            let* str_name := block_into_string name in
            let* '(w, sens, value) := deref_variable w sens str_name in
            Ok (w, sens, [ev_variable_reference name value])
        end
    | AEval _ content =>
        let* '(w, s, c) := eval_internal w content in
        let* content := block_new s c in
        let sens := b_sens content in
        let* b := block_new sens [new_from_node (NEval content)] in
        let* '(w, r) := pb w b in
        match r with
        | MOk => Ok (w, sens, [])
        | _ => Panic
        end
    | AEmpty _ => Ok (w, [], [])
    | AStrip _ _ | AWord _ _ _ | AWords _ _ => Panic
    end.

  (** src/ast/mod.rs:48-52 [eval]. *)
  Definition eval_step (w : world) (a : ast) : res (world * block) :=
    let* '(w, sens, content) := eval_internal w a in
    let* b := block_new sens content in
    Ok (w, b).
End Eval.

(** * src/parsers/variable/mod.rs *)

(** src/parsers/variable/mod.rs:58-65 [Modifiers]. *)
Record modifiers := Modifiers {
  m_export : bool; m_override : bool; m_private : bool; m_define : bool; m_undefine : bool
}.
(** The derived `Default` of [Modifiers] (src/parsers/variable/mod.rs:57-65). *)
Definition no_modifiers : modifiers := Modifiers false false false false false.

(** src/parsers/variable/mod.rs:50-55 [Action]. *)
Inductive var_action := VDefine (p : vparams) | VAppend (a : ast).

(** src/parsers/variable/mod.rs:69-73 [VariableAction]. *)
Record variable_action := VariableAction {
  va_name : N; va_mods : modifiers; va_action : var_action
}.

(** src/parsers/variable/mod.rs: [AssignmentType]. *)
Inductive assignment := AsSimple | AsRecursive | AsConditional | AsBang | AsAppend.

(** The flavor of an assignment, variable/mod.rs:244-250 and 362-368;
    [AsAppend] is unreachable there. *)
Definition assignment_flavor (a : assignment) : flavor :=
  match a with
  | AsSimple => FlSimple
  | AsConditional => FlConditional
  | AsRecursive => FlRecursive
  | AsBang => FlShell
  | AsAppend => FlRecursive
  end.

(** src/parsers/variable/mod.rs:240-253, 358-371. *)
Definition assignment_action (a : assignment) (value : ast) : var_action :=
  match a with
  | AsAppend => VAppend value
  | _ => VDefine (VParams value (assignment_flavor a) OrFile)
  end.

(** src/parsers/variable/mod.rs:289-294: the characters that end a name. *)
Definition ends_name (c : char) : bool :=
  is_whitespace c || existsb (N.eqb c) [c_colon; c_eq; 33; 63; 43]%N.

(** src/parsers/variable/mod.rs:286-323 [parse_assignment_operator]. *)
Definition parse_assignment_operator : parser (span * assignment) := fun i =>
  let! (i, name) := take_till ends_name i in
  let! (i, _) := makefile_whitespace i in
  let! (i, a) :=
    palt [ pmap (fun _ => AsRecursive) (tag (lit "="));
           pmap (fun _ => AsSimple) (tag (lit "::="));
           pmap (fun _ => AsSimple) (tag (lit ":="));
           pmap (fun _ => AsConditional) (tag (lit "?="));
           pmap (fun _ => AsBang) (tag (lit "!="));
           pmap (fun _ => AsAppend) (tag (lit "+=")) ] i in
  let! (i, _) := makefile_whitespace i in
  pok i (name, a).

(** src/parsers/variable/mod.rs:162-169 [Modifier]. *)
Inductive modifier := MExport | MOverride | MPrivate | MDefine | MUndefine.

(** src/parsers/variable/mod.rs:195-205: a modifier keyword. *)
Definition modifier_keyword : parser modifier :=
  terminated
    (palt [ pmap (fun _ => MDefine) (tag_no_case (lit "define"));
            pmap (fun _ => MExport) (tag_no_case (lit "export"));
            pmap (fun _ => MOverride) (tag_no_case (lit "override"));
            pmap (fun _ => MPrivate) (tag_no_case (lit "private"));
            pmap (fun _ => MUndefine) (tag_no_case (lit "undefine")) ])
    makefile_whitespace.

(** src/parsers/variable/mod.rs:185-188. *)
Definition is_unterminated (k : kind) : bool :=
  match k with KCustom UnternimatedVariable => true | _ => false end.

(** src/parsers/variable/mod.rs: [DefineLineAction]. *)
Inductive define_action := DAppend | DIncrease | DDecrease.

(** src/parsers/variable/mod.rs: [DefineLine]. *)
Record define_line := DefineLine { dl_action : define_action; dl_content : ast; dl_location : location }.

(** src/parsers/variable/mod.rs:385-394: grab a line with its line ending. *)
Definition define_grab_line : parser span :=
  palt [ take_until [c_hash];
         recognize (terminated (take_until [c_nl]) (tag [c_nl]));
         recognize (terminated (take_until [c_cr; c_nl]) (tag [c_cr; c_nl]));
         prest ].

(** src/parsers/variable/mod.rs:377-425 [parse_define_line]. *)
Definition parse_define_line : parser define_line := fun i =>
  let! (next_lines, i) := define_grab_line i in
  let* loc := span_location i in
  let* loc := unwrap loc in
  let! (_j, a) := parse_ast i in
  let! (i, action) :=
    preceded makefile_whitespace
      (palt [ pmap (fun _ => DIncrease) (tag (lit "define"));
              pmap (fun _ => DDecrease) (tag (lit "endef"));
              pmap (fun _ => DAppend) prest ]) i in
  let! (i, _) := take_till (fun c => negb (is_whitespace c)) i in
  match action with
  | DDecrease =>
      if negb (sp_len i =? 0) then fail_out (ExtraTokensAfter "endef")
      else pok next_lines (DefineLine action a loc)
  | _ => pok next_lines (DefineLine action a loc)
  end.

(** * src/parsers/mod.rs, parser state *)

(** src/parsers/mod.rs:32-54 [ConditionalInterpretation], [ConditionalState]:
    [cs_executing] is `interpretation == Executing`. *)
Record cond_state := CondState { cs_executing : bool; cs_seen_else : bool }.

(** src/parsers/mod.rs:57-63 [DefineState]. *)
Record define_state := DefineState { ds_var : N; ds_nesting : nat }.

(** src/parsers/mod.rs:90-104 [ParserState]; the conditional pushed last is the
    head of the list. *)
Record pstate := PState {
  ps_conds : list cond_state;
  ps_ignoring : bool;
  ps_rule : option protorule;
  ps_define : option define_state
}.

(** src/parsers/mod.rs:107-114 [new]. *)
Definition pstate_new : pstate := PState [] false None None.

(** src/parsers/mod.rs:258-270 [update_ignoring]. *)
Definition update_ignoring (s : pstate) : pstate :=
  PState (ps_conds s) (existsb (fun c => negb (cs_executing c)) (ps_conds s)) (ps_rule s) (ps_define s).

(** `Result<(), ParseErrorKind>` of the handlers (src/parsers/conditional/mod.rs:37-41,
    src/parsers/variable/mod.rs:76-80, src/parsers/targets/mod.rs:40-44). *)
Inductive hresult := HOk | HErr (k : pekind).

(** src/parsers/mod.rs:81-86 and 282-287 [push_command_line]. *)
Definition push_command_line (s : pstate) (line : ast) : res pstate :=
  let* r := unwrap (ps_rule s) in
  Ok (PState (ps_conds s) (ps_ignoring s)
        (Some (ProtoRule (pr_targets r) (pr_deps r) (pr_recipe r ++ [line]) (pr_type r)))
        (ps_define s)).

(** src/parsers/mod.rs:290-297 [close_rule]. *)
Definition close_rule (s : pstate) (w : world) : res (pstate * world) :=
  let s' := PState (ps_conds s) (ps_ignoring s) None (ps_define s) in
  match ps_rule s with
  | Some r =>
      let* '(n, d) := from_protorule (w_db w) (w_names w) r in
      Ok (s', World n d (w_cmd w))
  | None => Ok (s', w)
  end.

(** src/parsers/variable/mod.rs:76-113 [handle_global_variable_action]. *)
Definition handle_global_variable_action (s : pstate) (w : world) (va : variable_action)
  : res (pstate * world * hresult) :=
  let m := va_mods va in
  if m_export m || m_override m || m_private m || m_undefine m then Panic
  else
    let* s :=
      if m_define m then
        let* _ := rassert (match ps_define s with None => true | Some _ => false end) in
        Ok (PState (ps_conds s) (ps_ignoring s) (ps_rule s) (Some (DefineState (va_name va) 1)))
      else Ok s in
    let d :=
      match va_action va with
      | VDefine p => set_variable (w_db w) (va_name va) p
      | VAppend node =>
          append_to_variable (w_db w) (va_name va) (ast_location node)
            (VParams node FlRecursive OrFile) true
      end in
    Ok (s, set_db w d, HOk).

(** src/parsers/variable/mod.rs:116-151 [handle_define_line]. *)
Definition handle_define_line (s : pstate) (w : world) (dl : define_line)
  : res (pstate * world * hresult) :=
  let* def := unwrap (ps_define s) in
  let with_define d := PState (ps_conds s) (ps_ignoring s) (ps_rule s) d in
  let append n :=
    Ok (with_define (Some (DefineState (ds_var def) n)),
        set_db w (append_to_variable (w_db w) (ds_var def) (dl_location dl)
                    (VParams (dl_content dl) FlRecursive OrFile) false),
        HOk) in
  match dl_action dl with
  | DAppend => append (ds_nesting def)
  | DIncrease => append (S (ds_nesting def))
  | DDecrease =>
      let* n := usub (ds_nesting def) 1 in
      if n =? 0 then Ok (with_define None, w, HOk) else append n
  end.

(** src/parsers/targets/mod.rs:20-37 [Action]. *)
Inductive target_action :=
| TNoAction
| TNewRule (targets deps : list block) (double_colon : bool) (initial_command : option ast)
| TTargetVariable (targets : list block) (va : variable_action).

(** src/parsers/targets/mod.rs:40-74 [handle_target_action]. *)
Definition handle_target_action (s : pstate) (w : world) (ta : target_action)
  : res (pstate * world * hresult) :=
  match ta with
  | TNoAction => Ok (s, w, HOk)
  | TNewRule targets deps dc cmd =>
      let r := ProtoRule targets deps [] (if dc then RtDoubleColon else RtStandard) in
      let s := PState (ps_conds s) (ps_ignoring s) (Some r) (ps_define s) in
      let* s := match cmd with Some c => push_command_line s c | None => Ok s end in
      Ok (s, w, HOk)
  | TTargetVariable _ _ => Panic
  end.

(** src/parsers/directives/mod.rs:10-27 [Action]. *)
Inductive directive :=
| DiInclude (a : ast) | DiSoftInclude (a : ast) | DiExport (a : ast) | DiUnexport (a : ast)
| DiVPath (a : ast) | DiLoad (a : ast) | DiSoftLoad (a : ast).

(** src/parsers/directives/mod.rs:96-110 [parse_line]. *)
Definition directive_parse_line : parser directive :=
  palt
    [ pmap DiExport (preceded (tag_no_case (lit "export")) parse_ast);
      pmap DiUnexport (preceded (tag_no_case (lit "unexport")) parse_ast);
      pmap DiVPath (preceded (tag_no_case (lit "vpath")) parse_ast);
      pmap DiInclude (preceded (tag_no_case (lit "include")) parse_ast);
      pmap DiSoftInclude (preceded (tag_no_case (lit "sinclude")) parse_ast);
      pmap DiSoftInclude (preceded (tag_no_case (lit "-include")) parse_ast);
      pmap DiLoad (preceded (tag_no_case (lit "load")) parse_ast);
      pmap DiSoftLoad (preceded (tag_no_case (lit "-load")) parse_ast) ].

(** * src/parsers/targets/mod.rs, words and colons *)

(** src/parsers/targets/mod.rs:79-94 [MWordEnd]. *)
Inductive mword_end := MwEOL | MwStatic | MwVariable | MwColon | MwDColon | MwSemicolon | MwVarAssign.

(** src/parsers/targets/mod.rs:487-498: skip to the matching end brace; the
    result is the new `stop_index` and what is left. *)
Fixpoint skip_braces (open close : char) (count : nat) (stop : nat) (l : list (nat * char)) (boom : bool)
  : res (nat * list (nat * char)) :=
  match l with
  | [] => if boom then Panic else Ok (stop, [])
  | (idx, c) :: l' =>
      if (c =? open)%N then skip_braces open close (S count) (idx + 1) l' boom
      else if (c =? close)%N then
        match count with
        | S (S count') => skip_braces open close (S count') (idx + 1) l' boom
        | _ => Ok (idx + 1, l')
        end
      else skip_braces open close count (idx + 1) l' boom
  end.

(** `char_iter.peek()` (src/parsers/targets/mod.rs:456, 509, 522). *)
Definition peek (l : list (nat * char)) (boom : bool) : res (option (nat * char)) :=
  match l with
  | x :: _ => Ok (Some x)
  | [] => if boom then Panic else Ok None
  end.

(** src/parsers/targets/mod.rs:440-532: the scan of [next_mword]; the result is
    `stop_index` and `end_reason`.  The iterator shrinks in every round, so
    [fuel] = length + 1 suffices. *)
Fixpoint mword_scan (fuel : nat) (l : list (nat * char)) (boom : bool) (stop : nat) (reason : mword_end)
  (prev : char) : res (nat * mword_end) :=
  match fuel with
  | 0 => OutOfFuel
  | S fuel' =>
      match l with
      | [] => if boom then Panic else Ok (stop, reason)
      | (idx, chr) :: l =>
          if ((chr =? c_space) || (chr =? c_tab) || (chr =? c_eq))%N then Ok (idx, MwStatic)
          else if (chr =? c_colon)%N then
            let* p := peek l boom in
            let dos :=
              match p with
              | Some (j, c) => (j =? idx + 1) && (c =? c_bslash)%N && is_alphabetic prev
              | None => false
              end in
            if dos then mword_scan fuel' l boom (idx + 1) reason prev
            else Ok (idx + 1, reason)
          else if (chr =? c_dollar)%N then
            let* p := peek l boom in
            match p with
            | Some (idx, chr) =>
                let l := tl l in
                if (chr =? c_dollar)%N then mword_scan fuel' l boom (idx + 1) reason chr
                else if (chr =? c_lparen)%N then
                  let* '(stop, l) := skip_braces c_lparen c_rparen 1 (idx + 1) l boom in
                  mword_scan fuel' l boom stop MwVariable c_rparen
                else if (chr =? c_lbrace)%N then
                  let* '(stop, l) := skip_braces c_lbrace c_rbrace 1 (idx + 1) l boom in
                  mword_scan fuel' l boom stop MwVariable c_rbrace
                else mword_scan fuel' l boom (idx + 1) MwVariable chr
            | None => Ok (idx + 1, MwStatic)
            end
          else if (chr =? c_bslash)%N then
            let* p := peek l boom in
            match p with
            | Some (_, c) =>
                if ((c =? c_colon) || (c =? c_semi) || (c =? c_eq) || (c =? c_bslash))%N
                then mword_scan fuel' (tl l) boom (idx + 1) reason c
                else mword_scan fuel' l boom (idx + 1) reason chr
            | None => mword_scan fuel' l boom (idx + 1) reason chr
            end
          else if ((chr =? 63) || (chr =? 43))%N then
            let* p := peek l boom in
            match p with
            | Some (_, c) =>
                if (c =? c_eq)%N then Ok (idx, reason)
                else mword_scan fuel' l boom idx reason chr
            | None => mword_scan fuel' l boom (idx + 1) reason chr
            end
          else mword_scan fuel' l boom (idx + 1) reason chr
      end
  end.

(** src/parsers/targets/mod.rs:414-538 [next_mword]. *)
Definition next_mword : parser (span * mword_end) := fun i =>
  let! (i, _) := makefile_whitespace i in
  let* r :=
    palt [ pmap (fun c => (c, MwSemicolon)) (tag (lit ";"));
           pmap (fun c => (c, MwVarAssign)) (tag (lit "="));
           pmap (fun c => (c, MwVarAssign)) (tag (lit ":="));
           pmap (fun c => (c, MwVarAssign)) (tag (lit "::="));
           pmap (fun c => (c, MwDColon)) (tag (lit "::"));
           pmap (fun c => (c, MwColon)) (tag (lit ":"));
           pmap (fun c => (c, MwVarAssign)) (tag (lit "+="));
           pmap (fun c => (c, MwVarAssign)) (tag (lit "?="));
           pmap (fun c => (c, MwVarAssign)) (tag (lit "!=")) ] i in
  match r with
  | POk i x => pok i x
  | _ =>
      let '(l, boom) := span_indices i in
      let* '(stop, reason) := mword_scan (S (List.length l)) l boom 0 MwStatic 0%N in
      let* '(i, cap) := take_split i stop in
      pok i (cap, reason)
  end.

(** The stop predicate of src/parsers/targets/mod.rs:562. *)
Definition is_colon (c : char) : bool := (c =? c_colon)%N.

(** `(iter.next().unwrap(), iter.next().unwrap())` (src/parsers/targets/mod.rs:605). *)
Definition first_two (s : span) : res (char * char) :=
  match fst (span_chars s) with
  | a :: b :: _ => Ok (a, b)
  | _ => Panic
  end.

(** src/parsers/targets/mod.rs:567-615: is the colon between [pre] and [post] a
    drive specification? *)
Definition is_drivespec (pre : block) (post : span) : res bool :=
  let* o := first_char post in
  match o with
  | None => Ok false
  | Some ch =>
      if negb (ch =? c_slash)%N && negb (ch =? c_bslash)%N then Ok false
      else if block_len pre =? 0 then Ok false
      else if block_len pre =? 1 then
        let* o := first_char (block_span pre) in
        let* ch := unwrap o in
        Ok (is_alphabetic ch)
      else
        let* pre_slice := slice_from (block_span pre) (block_len pre - 2) in
        let* _ := rassert (sp_len pre_slice =? 2) in
        let* '(ch1, ch2) := first_two pre_slice in
        Ok (is_alphabetic ch1 && (is_whitespace ch2 || (ch2 =? c_lparen)%N))
  end.

(** src/parsers/targets/mod.rs:540-630 [find_non_drivespec_colon]: the text before
    the colon and, if there is one, the rest after it.  Each round consumes a
    colon. *)
Fixpoint drivespec_loop (fuel : nat) (i : span) (content : block) : res (block * option span) :=
  match fuel with
  | 0 => OutOfFuel
  | S fuel' =>
      let* '(pre, r) := makefile_take_until_unquote i is_colon in
      let* content := push_all_contents content (block_span pre) in
      match r with
      | Some (colon, post) =>
          let* d := is_drivespec pre post in
          if d then
            let* content := push_all_contents content colon in
            drivespec_loop fuel' post content
          else Ok (content, Some post)
      | None => Ok (content, None)
      end
  end.
(** src/parsers/targets/mod.rs:540-630 [find_non_drivespec_colon]. *)
Definition find_non_drivespec_colon (i : span) : res (block * option span) :=
  drivespec_loop (S (sp_len i)) i block_empty.

(** src/parsers/targets/mod.rs:365-387: index of the first colon preceded by an
    even number of backslashes. *)
Fixpoint second_colon (l : list (nat * char)) (boom : bool) (backslashes : nat) : res (option nat) :=
  match l with
  | [] => if boom then Panic else Ok None
  | (idx, c) :: l' =>
      if (c =? c_bslash)%N then second_colon l' boom (S backslashes)
      else if (c =? c_colon)%N then
        if Nat.even backslashes then Ok (Some idx) else second_colon l' boom 0
      else second_colon l' boom 0
  end.

(** * Parsers and handlers that evaluate *)

Section Engine.
  Context (ev : world -> ast -> res (world * block)).

  (** src/parsers/variable/mod.rs:325-374 [parse_variable_assignment]. *)
  Definition parse_variable_assignment (m : modifiers) (w : world) (i : span)
    : res (world * presult variable_action) :=
    wbind w (parse_assignment_operator i) (fun i out =>
    let '(name_segment, assign) := out in
    wbind w (makefile_whitespace i) (fun value_segment _ =>
    wbind w (parse_ast name_segment) (fun _ name_ast =>
    wbind w (parse_ast value_segment) (fun post_value value_ast =>
    let* '(w, name) := ev w name_ast in
    let* name := block_into_string name in
    let '(w, name) := world_intern_variable w (trim name) in
    let* '(w, value_ast) :=
      match assign with
      | AsSimple =>
          let* '(w, contents) := ev w value_ast in
          let* loc := span_location value_segment in
          let* loc := unwrap loc in
          Ok (w, APre loc contents)
      | _ => Ok (w, value_ast)
      end in
    wret w (POk post_value (VariableAction name m (assignment_action assign value_ast))))))).

  (** src/parsers/variable/mod.rs:223-273: after the `define` keyword. *)
  Definition parse_define_header (m : modifiers) (w : world) (i : span)
    : res (world * presult variable_action) :=
    let whole (w : world) :=
      let* s := span_into_string i in
      let '(w, name) := world_intern_variable w (trim s) in
      let* rest := slice_from i (sp_len i) in
      wret w (POk rest (VariableAction name m (VDefine (VParams a_empty FlRecursive OrFile)))) in
    let* r := parse_assignment_operator i in
    match r with
    | POk suffix (name_span, assign) =>
        let* r := makefile_whitespace suffix in
        match r with
        | POk trailing _ =>
            if sp_len trailing =? 0 then
              wbind w (parse_ast name_span) (fun _ name_ast =>
              let* '(w, name) := ev w name_ast in
              let* name := block_into_string name in
              let '(w, name) := world_intern_variable w (trim name) in
              wret w (POk trailing (VariableAction name m (assignment_action assign a_empty))))
            else whole w
        | _ => whole w
        end
    | _ => whole w
    end.

  (** src/parsers/variable/mod.rs:179-280: the loop over modifiers.  Each round
      consumes a keyword. *)
  Fixpoint variable_loop (fuel : nat) (m : modifiers) (w : world) (i : span)
    : res (world * presult variable_action) :=
    match fuel with
    | 0 => OutOfFuel
    | S fuel' =>
        let* '(w, r) := parse_variable_assignment m w i in
        let next (w : world) :=
          let* r := modifier_keyword i in
          match r with
          | POk i MExport =>
              variable_loop fuel' (Modifiers true (m_override m) (m_private m) (m_define m) (m_undefine m)) w i
          | POk i MOverride =>
              variable_loop fuel' (Modifiers (m_export m) true (m_private m) (m_define m) (m_undefine m)) w i
          | POk i MPrivate =>
              variable_loop fuel' (Modifiers (m_export m) (m_override m) true (m_define m) (m_undefine m)) w i
          | POk i MDefine =>
              parse_define_header (Modifiers (m_export m) (m_override m) (m_private m) true (m_undefine m)) w i
          | POk i MUndefine => Panic
          | _ => wret w (PError [KCustom (InternalFailure "not an assignment")])
          end in
        match r with
        | POk _ _ => wret w r
        | PError ks => if is_unterminated (error_kind ks) then wret w (PError ks) else next w
        | PFailure ks => if is_unterminated (error_kind ks) then wret w (PFailure ks) else next w
        end
    end.

  (** src/parsers/variable/mod.rs:155-281 [parse_line]. *)
  Definition variable_parse_line (w : world) (i : span) : res (world * presult variable_action) :=
    wbind w (makefile_whitespace i) (fun i _ =>
    if sp_len i =? 0 then wret w (PError [KCustom (InternalFailure "no content on line")])
    else variable_loop (S (sp_len i)) no_modifiers w i).

  (** src/parsers/targets/mod.rs:136-142 [expand_segment!]. *)
  Definition expand_segment {B} (w : world) (seg : span) (k : world -> block -> res (world * presult B))
    : res (world * presult B) :=
    wbind w (parse_ast seg) (fun _ a => let* '(w, v) := ev w a in k w v).

  (** The stop predicates of src/parsers/targets/mod.rs:178, 335 and 116. *)
  Definition is_semi (c : char) : bool := (c =? c_semi)%N.
  Definition is_semi_or_hash (c : char) : bool := ((c =? c_semi) || (c =? c_hash))%N.

  (** What the loop of [parse_line] (167-253) leaves: `pre_colon_buffer`,
      `after_colon`, `line_next`, `post_semi_content` and whether it ended with
      `mwt == EOL`; or the whole line was consumed (209). *)
  Inductive target_split :=
  | TsLine (pre_colon : block) (after_colon : option block) (line_next : span)
      (post_semi : option block) (eol : bool)
  | TsConsumed.

  (** src/parsers/targets/mod.rs:224-227, 249-252. *)
  Definition push_word (buffer content : block) : res block :=
    let buffer := if 0 <? block_len buffer then block_push buffer cr_space else buffer in
    push_all_contents buffer (block_span content).

  (** src/parsers/targets/mod.rs:167-253.  Each round consumes at least one
      character of the line. *)
  Fixpoint target_loop (fuel : nat) (w : world) (line_next mw : span) (post_semi : option block)
    (pre_colon : block) : res (world * presult target_split) :=
    match fuel with
    | 0 => OutOfFuel
    | S fuel' =>
        expand_segment w mw (fun w new_content =>
        let after (w : world) (line_next : span) (post_semi : option block) (new_content : block) :=
          if block_len new_content =? 0 then wret w (POk line_next TsConsumed)
          else
            let* '(content, colon) := find_non_drivespec_colon (block_span new_content) in
            match colon with
            | Some post =>
                let* after_colon := to_new_block post in
                let* pre_colon := push_word pre_colon content in
                wret w (POk line_next (TsLine pre_colon (Some after_colon) line_next post_semi false))
            | None =>
                wbind w (next_mword line_next) (fun line_next out =>
                let '(mw, mwt) := out in
                match mwt with
                | MwEOL => wret w (POk line_next (TsLine pre_colon None line_next post_semi true))
                | _ =>
                    let* pre_colon := push_word pre_colon content in
                    target_loop fuel' w line_next mw post_semi pre_colon
                end)
            end in
        match post_semi with
        | Some _ => after w line_next post_semi new_content
        | None =>
            let* '(pre, r) := makefile_take_until_unquote (block_span new_content) is_semi in
            match r with
            | Some (_, post) =>
                let* post_content := to_new_block post in
                expand_segment w line_next (fun w rest =>
                let* post_content := push_all_contents post_content (block_span rest) in
                let* line_next := slice_from line_next (sp_len line_next) in
                after w line_next (Some post_content) pre)
            | None => after w line_next None new_content
            end
        end)
    end.

  (** src/parsers/targets/mod.rs:278-411: from the split line to the action. *)
  Definition target_finish (w : world) (rest : span) (pre_colon : block) (after_colon : option block)
    (line_next : span) (post_semi : option block) : res (world * presult target_action) :=
    let* targets := parse_file_seq (block_span pre_colon) false [] in
    (* 278-298 *)
    let* ac := unwrap after_colon in
    let* blk := push_all_contents block_empty (block_span ac) in
    let* blk := push_all_contents blk line_next in
    let pre_semi_len := block_len blk in
    let* blk :=
      match post_semi with
      | Some content => push_all_contents (block_push blk cr_semicolon) (block_span content)
      | None => Ok blk
      end in
    (* 299-305 *)
    let slice := block_span blk in
    let* r := tag [c_colon] slice in
    let* '(slice, double_colon, pre_semi_len) :=
      match r with
      | POk i _ => let* n := usub pre_semi_len 1 in Ok (i, true, n)
      | _ => Ok (slice, false, pre_semi_len)
      end in
    (* 308-319 *)
    let* '(w, r) := variable_parse_line w slice in
    match r with
    | POk _ action => wret w (POk rest (TTargetVariable targets action))
    | _ =>
        (* 322-344 *)
        let pre_semi_slice := slice_to slice pre_semi_len in
        let* post_semi_slice :=
          if pre_semi_len <? sp_len slice then
            let* s := slice_from slice (pre_semi_len + 1) in Ok (Some s)
          else Ok None in
        expand_segment w pre_semi_slice (fun w pre_semi_buffer =>
        let* '(pre_semi_buffer, post_semi_buffer) :=
          match post_semi_slice with
          | None =>
              let* '(pre, r) := makefile_take_until_unquote (block_span pre_semi_buffer) is_semi in
              match r with
              | Some (_, post) => let* b := to_new_block post in Ok (pre, Some b)
              | None => Ok (pre, None)
              end
          | Some s => let* b := to_new_block s in Ok (pre_semi_buffer, Some b)
          end in
        (* 350-357 *)
        wbind w (match post_semi_buffer with
                 | Some content => let! (i, a) := parse_ast (block_span content) in pok i (Some a)
                 | None => pok rest None
                 end) (fun _ command =>
        (* 365-392 *)
        let '(l, boom) := span_indices (block_span pre_semi_buffer) in
        let* c := second_colon l boom 0 in
        match c with
        | Some _ => Panic
        | None =>
            let* deps := parse_file_seq (block_span pre_semi_buffer) false [c_colon] in
            wret w (POk rest (TNewRule targets deps double_colon command))
        end))
    end.

  (** src/parsers/targets/mod.rs:98-412 [parse_line]. *)
  Definition target_parse_line (w : world) (i : span) : res (world * presult target_action) :=
    wbind w (makefile_line i GNU false) (fun rest line =>
    (* 116-130 *)
    let* '(line, r) := makefile_take_until_unquote (block_span line) is_semi_or_hash in
    let* semip :=
      match r with
      | Some (stopchar, post) =>
          let* c := first_char stopchar in
          Ok (match c with
              | Some c => if (c =? c_hash)%N then None else Some post
              | None => Some post
              end)
      | None => Ok None
      end in
    let* post_semi :=
      match semip with
      | Some s => let* b := to_new_block s in Ok (Some b)
      | None => Ok None
      end in
    (* 144-160 *)
    wbind w (next_mword (block_span line)) (fun line_next out =>
    let '(mw, mwt) := out in
    match mwt with
    | MwEOL =>
        match post_semi with
        | Some _ => wret w (PFailure [KCustom NoRuleRecipe])
        | None => wret w (POk rest TNoAction)
        end
    | MwColon | MwDColon => wret w (POk rest TNoAction)
    | _ =>
        let* '(w, r) := target_loop (S (S (sp_len line_next))) w line_next mw post_semi block_empty in
        match r with
        | PError ks => wret w (PError ks)
        | PFailure ks => wret w (PFailure ks)
        | POk _ TsConsumed => wret w (POk rest TNoAction)
        | POk _ (TsLine pre_colon after_colon line_next post_semi eol) =>
            (* 259-268 *)
            if eol then
              let* r := makefile_whitespace (block_span pre_colon) in
              match r with
              | POk after_space _ =>
                  if sp_len after_space =? 0 then wret w (POk rest TNoAction)
                  else wret w (PFailure [KCustom MissingSeparator])
              | _ => Panic
              end
            else target_finish w rest pre_colon after_colon line_next post_semi
        end
    end)).

  (** src/parsers/conditional/mod.rs:37-102 [handle_conditional]. *)
  Definition handle_conditional (s : pstate) (w : world) (c : conditional)
    : res (pstate * world * hresult) :=
    let with_conds cs := PState cs (ps_ignoring s) (ps_rule s) (ps_define s) in
    match c with
    | CIfEq a b | CIfNEq a b =>
        let* '(w, a) := ev w a in
        let* '(w, b) := ev w b in
        let* a := block_into_string a in
        let* b := block_into_string b in
        let eq := str_eqb (trim a) (trim b) in
        let executing := match c with CIfNEq _ _ => negb eq | _ => eq end in
        Ok (update_ignoring (with_conds (CondState executing false :: ps_conds s)), w, HOk)
    | CElse None =>
        match ps_conds s with
        | [] => Ok (s, w, HErr UnattachedElse)
        | CondState executing seen :: cs =>
            if seen then Ok (s, w, HErr TooManyElses)
            else Ok (update_ignoring (with_conds (CondState (negb executing) true :: cs)), w, HOk)
        end
    | CElse (Some _) => Panic
    | CEndIf =>
        match ps_conds s with
        | [] => Ok (s, w, HErr UnattachedEndIf)
        | _ :: cs => Ok (with_conds cs, w, HOk)
        end
    | CIfDef _ | CIfNDef _ => Panic
    end.

  (** [rm] is [Engine::read_makefile] for the text of a file. *)
  Context (rm : world -> str -> str -> res (world * mresult)).
  Context (fs : str -> file).

  (** src/parsers/directives/mod.rs:63-90: include the files in order. *)
  Fixpoint include_files (w : world) (soft : bool) (files : list block) : res (world * hresult) :=
    match files with
    | [] => Ok (w, HOk)
    | f :: files' =>
        let* name := block_into_string f in
        match fs name with
        | FOpenError k =>
            if soft then include_files w soft files' else Ok (w, HErr (IncludeFailure k name))
        | FReadError k => Ok (w, HErr (IncludeFailure k name))
        | FText text =>
            let* '(w, r) := rm w name text in
            match r with
            | MOk => include_files w soft files'
            | MIOError k => Ok (w, HErr (IncludeFailure k name))
            | MParseError p => Ok (w, HErr p)
            end
        end
    end.

  (** src/parsers/directives/mod.rs:43-93 [handle_include]. *)
  Definition handle_include (w : world) (a : ast) (soft : bool) : res (world * hresult) :=
    let* '(w, contents) := ev w a in
    let* files := parse_file_seq (block_span contents) false [] in
    include_files w soft files.

  (** src/parsers/directives/mod.rs:30-41 [handle_directive_action]. *)
  Definition handle_directive_action (s : pstate) (w : world) (d : directive)
    : res (pstate * world * hresult) :=
    match d with
    | DiInclude a => let* '(w, r) := handle_include w a false in Ok (s, w, r)
    | DiSoftInclude a => let* '(w, r) := handle_include w a true in Ok (s, w, r)
    | _ => Panic
    end.

  (** The outcome of src/parsers/mod.rs:117-254 [parse_line]: new state, new world,
      parse result. *)
  Definition line_result := res (pstate * world * presult unit).

  (** src/parsers/mod.rs:127-150, 183-206 [run_parser!], [run_line_parser!]: on
      success run the handler and return with the rest [i]; on `Error` go on;
      on `Failure` return it. *)
  Definition run_parser {A} (s : pstate) (w : world) (i : span) (r : presult A)
    (cleanup : A -> res (pstate * world * hresult)) (next : unit -> line_result) : line_result :=
    match r with
    | POk _ o =>
        let* '(s, w, h) := cleanup o in
        match h with
        | HOk => Ok (s, w, POk i tt)
        | HErr e => Ok (s, w, PFailure [KCustom e])
        end
    | PError _ => next tt
    | PFailure ks => Ok (s, w, PFailure ks)
    end.

  (** The rest of a successful parse (src/parsers/mod.rs:127-150). *)
  Definition rest_of {A} (i : span) (r : presult A) : span :=
    match r with POk i' _ => i' | _ => i end.

  (** src/parsers/mod.rs:223-253: what happens to a line that is not a
      conditional, when lines are not ignored.  [i] is what follows the line. *)
  Definition parse_active_line (s : pstate) (w : world) (i : span) (line : block) : line_result :=
    let* '(w, r) := variable_parse_line w (block_span line) in
    run_parser s w i r
      (fun va =>
         let* '(s, w) := close_rule s w in
         handle_global_variable_action s w va)
      (fun _ =>
       let* r := directive_parse_line (block_span line) in
       run_parser s w i r
         (fun d =>
            let* '(s, w) := close_rule s w in
            handle_directive_action s w d)
         (fun _ =>
          let* c := first_char (block_span line) in
          let starts_command :=
            match c with Some c => (c =? w_cmd w)%N | None => false end in
          if starts_command then Ok (s, w, PFailure [KCustom RecipeExpected])
          else
            let* '(w, r) := target_parse_line w (block_span line) in
            run_parser s w i r
              (fun ta =>
                 let* '(s, w) := close_rule s w in
                 handle_target_action s w ta)
              (fun _ => Ok (s, w, POk i tt)))).

  (** src/parsers/mod.rs:178-253: collapse the line and run the line parsers. *)
  Definition parse_collapsed_line (s : pstate) (w : world) (i : span) : line_result :=
    let* r := makefile_line i GNU true in
    match r with
    | PError ks => Ok (s, w, PError ks)
    | PFailure ks => Ok (s, w, PFailure ks)
    | POk i line =>
        if block_len line =? 0 then Ok (s, w, POk i tt)
        else
          let* r := conditional_parse_line (block_span line) in
          run_parser s w i r (handle_conditional s w)
            (fun _ =>
             if ps_ignoring s then Ok (s, w, POk i tt)
             else parse_active_line s w i line)
    end.

  (** src/parsers/mod.rs:117-254 [ParserState::parse_line]. *)
  Definition parse_line (s : pstate) (w : world) (i : span) : line_result :=
    let* r := parse_comment_following_whitespace i in
    run_parser s w (rest_of i r) r (fun _ => Ok (s, w, HOk))
      (fun _ =>
       match ps_rule s with
       | Some _ =>
           let* r := recipe_line (w_cmd w) i in
           run_parser s w (rest_of i r) r
             (fun line => let* s := push_command_line s line in Ok (s, w, HOk))
             (fun _ => parse_collapsed_line s w i)
       | None =>
           match ps_define s with
           | Some _ =>
               let* r := parse_define_line i in
               run_parser s w (rest_of i r) r (handle_define_line s w) (fun _ => Panic)
           | None => parse_collapsed_line s w i
           end
       end).

  (** src/lib.rs:580-589: the loop over lines; every error is a panic.  Each line
      shortens the input. *)
  Fixpoint process_lines (fuel : nat) (s : pstate) (w : world) (i : span) : res (pstate * world) :=
    match fuel with
    | 0 => OutOfFuel
    | S fuel' =>
        if 0 <? sp_len i then
          let* '(s, w, r) := parse_line s w i in
          match r with
          | POk i _ => process_lines fuel' s w i
          | _ => Panic
          end
        else Ok (s, w)
    end.

  (** U+FEFF (src/lib.rs:568). *)
  Definition c_bom : char := 65279%N.

  (** src/lib.rs:558-592 [process_block]. *)
  Definition process_step (w : world) (b : block) : res (world * mresult) :=
    let* r := popt (pchar c_bom) (block_span b) in
    match r with
    | PFailure _ => Panic
    | POk i _ =>
        let* '(_, w) := process_lines (S (sp_len i)) pstate_new w i in
        Ok (w, MOk)
    | PError _ =>
        let* '(_, w) := process_lines (S (block_len b)) pstate_new w (block_span b) in
        Ok (w, MOk)
    end.
End Engine.

(** src/lib.rs:525-555 [read_makefile], given [process_block], for a file whose
    contents could be read. *)
Definition read_makefile_with (pb : world -> block -> res (world * mresult))
  (w : world) (name text : str) : res (world * mresult) :=
  let '(n, id) := intern_file_name (w_names w) name in
  let w := set_names w n in
  let* b := block_new [] [ev_constant (Located (SourceLocation 1 1 id) text)] in
  pb w b.

(** The knot: [eval] (src/ast/mod.rs:48-52) and [process_block]
    (src/lib.rs:558-592).  The fuel bounds the depth of variable
    references, evals and includes, not the size of texts. *)
Fixpoint eval_fuel (fs : str -> file) (fuel : nat) {struct fuel} : world -> ast -> res (world * block) :=
  match fuel with
  | 0 => fun _ _ => OutOfFuel
  | S fuel' => fun w a => eval_step (eval_fuel fs fuel') (process_fuel fs fuel') w a
  end
with process_fuel (fs : str -> file) (fuel : nat) {struct fuel} : world -> block -> res (world * mresult) :=
  match fuel with
  | 0 => fun _ _ => OutOfFuel
  | S fuel' => fun w b =>
      process_step (eval_fuel fs fuel') (read_makefile_with (process_fuel fs fuel')) fs w b
  end.

(** src/lib.rs:525-555 [read_makefile]: the reader either fails or gives the
    text. *)
Definition read_makefile (fs : str -> file) (fuel : nat) (w : world) (name : str) (input : N + str)
  : res (world * mresult) :=
  match input with
  | inl k => Ok (w, MIOError k)
  | inr text => read_makefile_with (process_fuel fs fuel) w name text
  end.

(** src/eval/mod.rs:91-99 [Variable::expand] for a variable of the database
    (`target` is always `None` there). *)
Definition expand (fs : str -> file) (fuel : nat) (w : world) (v : vparams) : res (world * str) :=
  let* '(w, b) := eval_fuel fs fuel w (v_ast v) in
  let* s := block_into_string b in
  Ok (w, s).

(** A fresh engine and name cache (src/lib.rs:490-501). *)
Definition world_new : world := World (Names [] []) db_empty c_tab.
