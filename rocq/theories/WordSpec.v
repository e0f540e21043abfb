(** Specification of the words of a rule line: where the next word of a text ends.
    Everything is said of texts ([list placed]); there are no spans, iterators or
    indices. *)
From Coq Require Import String.
From Verif Require Import Base LocModel EvdModel ParseModel ParseSpec EvalSpec AstParseSpec EngineModel EngineSpec MakeSpec.
Local Open Scope nat_scope.

(** * Operators *)

(** A text that begins (after blanks) with one of these is cut after it; the first that
    fits is taken. *)
Definition word_operators : list (string * mword_end) :=
  [(";", MwSemicolon); ("=", MwVarAssign); (":=", MwVarAssign); ("::=", MwVarAssign); ("::", MwDColon); (":", MwColon);
   ("+=", MwVarAssign); ("?=", MwVarAssign); ("!=", MwVarAssign)]%string.

Definition begins (k : string) (t : text) : Prop := exists rest, chars t = lit k ++ rest.
Definition no_operator (t : text) : Prop := forall k e, In (k, e) word_operators -> ~ begins k t.

(** [operator t w rest e]: [w] is the first of the operators that [t] begins with. *)
Definition operator (t w rest : text) (e : mword_end) : Prop :=
  t = w ++ rest /\ exists before k after, word_operators = before ++ (k, e) :: after /\ chars w = lit k /\
    forall k' e', In (k', e') before -> ~ begins k' t.

(** * Words *)

Definition letter (c : char) : Prop := (65 <= c <= 90 \/ 97 <= c <= 122)%N.

(** `:` after a letter and before a backslash, as in `c:\dir`, does not end a word. *)
Definition drive (before : option char) (after : text) : Prop :=
  (exists p, before = Some p /\ letter p) /\ begins_char c_bslash after.

(** What a backslash quotes. *)
Definition quotable (c : char) : Prop := In c [colon; semicolon; equals; c_bslash].

(** [word before dyn t w rest e]: the rest of a word in [t] is [w], and [rest] follows it;
    [before] is the character before [t], [dyn] says whether the word has a reference to
    a variable so far, and [e] is the kind of word recorded. *)
Definition kind (dyn : bool) : mword_end := if dyn then MwVariable else MwStatic.

Inductive word : option char -> bool -> text -> text -> text -> mword_end -> Prop :=
| W_end : forall p dyn, word p dyn [] [] [] (kind dyn)
  (* A blank or `=` ends it.  (The word is then said to be without references.) *)
| W_stop : forall p dyn c t, blank (fst c) = true \/ fst c = equals -> word p dyn (c :: t) [] (c :: t) MwStatic
  (* So do `?=` and `+=`. *)
| W_assign : forall p dyn c d t, In (fst c) (lit "?+") -> fst d = equals -> word p dyn (c :: d :: t) [] (c :: d :: t) (kind dyn)
  (* A colon is its last character. *)
| W_colon : forall p dyn c t, fst c = colon -> ~ drive p t -> word p dyn (c :: t) [c] t (kind dyn)
| W_drive : forall p dyn c t w rest e, fst c = colon -> drive p t -> word (Some colon) dyn t w rest e -> word p dyn (c :: t) (c :: w) rest e
  (* References: blanks, colons and the like in them do not end the word. *)
| W_dollar : forall p dyn x t w rest y e, fst x = dollar -> fst y = dollar -> word (Some dollar) dyn t w rest e ->
    word p dyn (x :: y :: t) (x :: y :: w) rest e
| W_char_ref : forall p dyn x y t w rest e, fst x = dollar -> ~ In (fst y) [dollar; open_paren; open_brace] -> word (Some (fst y)) true t w rest e ->
    word p dyn (x :: y :: t) (x :: y :: w) rest e
| W_group : forall p dyn x y o c t inner z u w rest e, fst x = dollar -> fst y = o -> In (o, c) [(open_paren, close_paren); (open_brace, close_brace)] ->
    opened_first o c inner -> all_closed o c inner -> fst z = c -> t = inner ++ z :: u -> word (Some c) true u w rest e ->
    word p dyn (x :: y :: t) (x :: y :: inner ++ z :: w) rest e
  (* A reference that is not closed goes to the end. *)
| W_open : forall p dyn x y o c t, fst x = dollar -> fst y = o -> In (o, c) [(open_paren, close_paren); (open_brace, close_brace)] ->
    (forall inner rest, ~ group o c t inner rest) -> word p dyn (x :: y :: t) (x :: y :: t) [] MwVariable
| W_last_dollar : forall p dyn x, fst x = dollar -> word p dyn [x] [x] [] MwStatic
  (* Quoted characters do not end it; but one that is the last of the text is left. *)
| W_quoted : forall p dyn x y t w rest e, fst x = c_bslash -> quotable (fst y) -> t <> [] -> word (Some (fst y)) dyn t w rest e ->
    word p dyn (x :: y :: t) (x :: y :: w) rest e
| W_quoted_last : forall p dyn x y, fst x = c_bslash -> quotable (fst y) -> word p dyn [x; y] [x] [y] (kind dyn)
| W_backslash : forall p dyn x t w rest e, fst x = c_bslash -> (forall y u, t = y :: u -> ~ quotable (fst y)) -> word (Some c_bslash) dyn t w rest e ->
    word p dyn (x :: t) (x :: w) rest e
  (* All else is part of the word. *)
| W_char : forall p dyn c t w rest e, blank (fst c) = false -> ~ In (fst c) [equals; colon; dollar; c_bslash] ->
    (In (fst c) (lit "?+") -> ~ begins_char equals t) -> word (Some (fst c)) dyn t w rest e -> word p dyn (c :: t) (c :: w) rest e.

(** [cuts t w rest e]: the first word or operator of [t], and what follows it. *)
Definition cuts (t w rest : text) (e : mword_end) : Prop := operator t w rest e \/ (no_operator t /\ word None false t w rest e).
