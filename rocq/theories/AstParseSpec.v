(** Specification of expressions as text: how a text, whose characters carry
    their source location, is read.  No spans, parsers or fuel. *)
From Coq Require Import String.
From Verif Require Import Base LocModel EvdModel AstModel EvdSpec ParseModel ParseSpec EvalSpec.
Local Open Scope nat_scope.

Notation dollar := 36%N.
Notation open_paren := 40%N.
Notation close_paren := 41%N.
Notation open_brace := 123%N.
Notation close_brace := 125%N.
Notation comma := 44%N.

(** * Balanced text *)

(** Number of occurrences of a character. *)
Definition count (c : char) (t : list placed) : nat :=
  List.length (filter (fun a => fst a =? c)%N t).

(** Nothing is closed that was not opened before. *)
Definition opened_first (o c : char) (t : list placed) : Prop :=
  forall p q, t = p ++ q -> count c p <= count o p.
Definition all_closed (o c : char) (t : list placed) : Prop := count o t = count c t.

(** [t] is [inner], the character [c] that closes it, and [rest]. *)
Definition group (o c : char) (t inner rest : list placed) : Prop :=
  opened_first o c inner /\ all_closed o c inner /\ exists x, fst x = c /\ t = inner ++ x :: rest.

(** [t] begins with the function argument [arg]: the text before the first comma
    outside parentheses and braces, or all of it. *)
Definition outside (t : list placed) : Prop :=
  all_closed open_paren close_paren t /\ all_closed open_brace close_brace t.
Definition argument (t arg rest : list placed) : Prop :=
  t = arg ++ rest /\
  opened_first open_paren close_paren arg /\ opened_first open_brace close_brace arg /\
  (forall p x q, arg = p ++ x :: q -> fst x = comma -> ~ outside p) /\
  match rest with
  | [] => True
  | x :: _ => fst x = comma /\ outside arg
  end.

(** * Reading *)

(** The text begins with the word [k] and goes on with [u]. *)
Definition begins (k : string) (t u : list placed) : Prop :=
  exists w, t = w ++ u /\ chars w = lit k.
Definition begins_with (k : string) (t : list placed) : Prop := exists u, begins k t u.

Definition function_names : list string := ["eval"; "strip"; "words"; "word"]%string.

(** Located strings that spell out the text [t]. *)
Definition spells (cs : list located) (t : list placed) : Prop :=
  segments_marks cs = t /\ Forall (fun g => l_str g <> []) cs.

(** The character [y] was written directly after [x]. *)
Definition follows (x y : placed) : Prop := snd x <> Synthetic /\ snd y = step_location (snd x) (fst x).
(** A text written in one go. *)
Definition unbroken (t : list placed) : Prop := forall p x y q, t = p ++ x :: y :: q -> follows x y.
(** The parts [cs], each with its text, are divided only where the text was not
    written in one go. *)
Definition parted {A} (m : A -> list placed) (cs : list A) : Prop := forall p q u x y v, cs = p ++ q ->
  concat (List.map m p) = u ++ [x] -> concat (List.map m q) = y :: v -> ~ follows x y.

Definition begins_dollar (u : list placed) : Prop := forall c v, u = c :: v -> fst c = dollar.

(** The characters that open a group, and the brackets counted in it.  (The code
    takes `$}` where GNU make has `${`.) *)
Inductive opens : char -> char -> char -> Prop :=
| O_paren : opens open_paren open_paren close_paren
| O_brace : opens close_brace open_brace close_brace.

(** [reads t ns]: the text [t] is read as the sequence of expressions [ns];
    [reads_ast t a]: it is read as the one expression [a];
    [calls l t a]: the inside [t] of a group is a call of a built-in function.
    What follows a function call is not read (the code drops it).
    If [whole], then text written in one go is read as one constant. *)
Inductive reads (whole : Prop) : list placed -> list ast -> Prop :=
| R_nil : reads whole [] []
| R_text : forall t cs u ns, t <> [] -> ~ has fst dollar t -> spells cs t -> (whole -> parted located_marks cs /\ begins_dollar u) ->
    reads whole u ns ->
    reads whole (t ++ u) (List.map a_constant cs ++ ns)
| R_last : forall d, fst d = dollar -> reads whole [d] [a_constant (Located (snd d) [dollar])]
| R_dollar : forall d c u ns, fst d = dollar -> fst c = dollar -> reads whole u ns ->
    reads whole (d :: c :: u) (a_constant (Located (snd c) [dollar]) :: ns)
| R_char : forall d c u ns, fst d = dollar -> ~ In (fst c) [dollar; open_paren; close_brace] -> reads whole u ns ->
    reads whole (d :: c :: u) (AVar (snd d) (a_constant (Located (snd c) [fst c])) :: ns)
| R_var : forall d b o c t inner rest a ns, fst d = dollar -> opens (fst b) o c -> group o c t inner rest ->
    (forall k, In k function_names -> ~ begins_with k inner) -> reads_ast whole inner a -> reads whole rest ns ->
    reads whole (d :: b :: t) (AVar (snd d) a :: ns)
| R_call : forall d b o c t inner rest a, fst d = dollar -> opens (fst b) o c -> group o c t inner rest ->
    calls whole (snd d) inner a ->
    reads whole (d :: b :: t) [a]
with reads_ast (whole : Prop) : list placed -> ast -> Prop :=
| RA_empty : reads_ast whole [] a_empty
| RA_some : forall m t ns, reads whole (m :: t) ns -> reads_ast whole (m :: t) (collapsing_concat (snd m) ns)
with calls (whole : Prop) : location -> list placed -> ast -> Prop :=
| C_eval : forall l t u a, begins "eval" t u -> reads_ast whole (lstrip fst u) a -> calls whole l t (AEval l a)
| C_strip : forall l t u arg a, begins "strip" t u -> argument (lstrip fst u) arg [] -> reads_ast whole arg a ->
    calls whole l t (AStrip l a)
| C_words : forall l t u arg a, begins "words" t u -> argument (lstrip fst u) arg [] -> reads_ast whole arg a ->
    calls whole l t (AWords l a)
| C_word : forall l t u arg1 x v arg2 a1 a2, begins "word" t u -> ~ begins_with "words" t ->
    argument (lstrip fst u) arg1 (x :: v) -> reads_ast whole arg1 a1 ->
    argument (lstrip fst v) arg2 [] -> reads_ast whole arg2 a2 ->
    calls whole l t (AWord l a1 a2).
Scheme reads_mut := Induction for reads Sort Prop
  with reads_ast_mut := Induction for reads_ast Sort Prop
  with calls_mut := Induction for calls Sort Prop.
Combined Scheme reads_all from reads_mut, reads_ast_mut, calls_mut.

(** * What a text means *)

(** [means whole e t m d]: with the definitions [e] the text [t] stands for [m] and
    looks up the variables [d].  Text without dollar signs stands for itself, a
    doubled dollar sign for one, a final one for itself; `$c` and `$(name)` stand
    for the value of the variable, where the name may contain references;
    `$(name:key=replacement)`, written in one go, for its value with the words
    replaced, if [whole]. *)
Definition variable_value (e : env) (n : str) (m : list placed) (d : list str) : Prop :=
  match e n with
  | Some v => exists d2, expands e v m d2 /\ d = n :: d2
  | None => m = [] /\ d = [n]
  end.

(** The value of the variable [n] with [k] replaced by [r] in its words. *)
Definition subst_value (e : env) (n : str) (k r m : list placed) (d : list str) : Prop :=
  match e n with
  | Some v => exists p2 d2, pieces_of e v p2 d2 /\ cut_substituted fst (made 32%N) k r p2 m /\ d = n :: d2
  | None => m = [] /\ d = [n]
  end.

Inductive means (whole : Prop) (e : env) : list placed -> list placed -> list str -> Prop :=
| M_nil : means whole e [] [] []
| M_plain : forall c t m d, fst c <> dollar -> means whole e t m d -> means whole e (c :: t) (c :: m) d
| M_last : forall x, fst x = dollar -> means whole e [x] [x] []
| M_dollar : forall x y t m d, fst x = dollar -> fst y = dollar -> means whole e t m d ->
    means whole e (x :: y :: t) (y :: m) d
| M_char : forall x c t m1 d1 m2 d2, fst x = dollar -> ~ In (fst c) [dollar; open_paren; close_brace] ->
    variable_value e [fst c] m1 d1 -> means whole e t m2 d2 ->
    means whole e (x :: c :: t) (m1 ++ m2) (d1 ++ d2)
| M_var : forall x b t inner rest nm d0 m1 d1 m2 d2, fst x = dollar -> fst b = open_paren ->
    group open_paren close_paren t inner rest ->
    (forall k, In k function_names -> ~ begins_with k inner) ->
    means whole e inner nm d0 -> plain nm -> variable_value e (chars nm) m1 d1 -> means whole e rest m2 d2 ->
    means whole e (x :: b :: t) (m1 ++ m2) ((d0 ++ d1) ++ d2)
| M_subst : forall x b t inner rest n k r m1 d1 m2 d2, whole -> fst x = dollar -> fst b = open_paren ->
    group open_paren close_paren t inner rest ->
    (forall k, In k function_names -> ~ begins_with k inner) ->
    ~ has fst dollar inner -> unbroken inner -> is_subst inner n k r -> subst_value e (chars n) k r m1 d1 -> means whole e rest m2 d2 ->
    means whole e (x :: b :: t) (m1 ++ m2) (d1 ++ d2).

(** * Flat text *)

(** A piece of text that is one located string, possibly wrapped. *)
Fixpoint leaf_node (n : node) : Prop :=
  match n with
  | NConst _ => True
  | NConcat v | NVar _ v | NSubst _ _ _ v | NEval v =>
      match v with Blk _ cs => match cs with [c] => leaf_cref c | _ => False end end
  end
with leaf_cref (c : cref) : Prop := match c with CRef _ _ n => leaf_node n end.

(** Text whose pieces are such strings: what is read from a file, and its logical
    lines. *)
Definition flat (s : span) : Prop := Forall leaf_cref (sp_contents s).
Definition flat_block (b : block) : Prop := Forall leaf_cref (b_content b).

(** Moreover, what was written in one go is in one piece: so it is in a file and its
    logical lines. *)
Definition tidy (s : span) : Prop := flat s /\ parted cref_marks (sp_contents s).
Definition tidy_block (b : block) : Prop := flat_block b /\ parted cref_marks (b_content b).

(** [a] is a call of the built-in function [k]. *)
Definition call_of (k : string) (a : ast) : Prop :=
  match k, a with
  | "eval"%string, AEval _ _ | "strip"%string, AStrip _ _ | "words"%string, AWords _ _ | "word"%string, AWord _ _ _ => True
  | _, _ => False
  end.
