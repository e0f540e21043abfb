(** Specification of makefiles, as plain strings, that end the program with a panic:
    the lines that do so, and where they are. *)
From Coq Require Import String.
From Verif Require Import Base LocModel EvdModel AstModel EngineModel ParseModel ParseSpec EvdSpec DbSpec EvalSpec AstParseSpec EngineSpec MakeSpec WriteSpec.
Local Open Scope nat_scope.

(** The end of a line in a text written on Windows. *)
Definition crlf : str := [13; 10]%N.

(** Whether a line is in the first branch of a conditional, in the second one, or in none. *)
Inductive place := Top | InThen | InElse.

(** [reaches fs live s p txt s' q]: after the statements and the beginnings of conditionals in
    [txt], the state [s] has become [s'], and the place [p] has become [q]. *)
Inductive reaches (fs : str -> file) : bool -> wstate -> place -> str -> wstate -> place -> Prop :=
| RE_here : forall live s p, reaches fs live s p [] s p
| RE_stmts : forall live s p ss s1 t s2 q, every well_formed ss -> acts_all fs live s ss s1 ->
    reaches fs live s1 p t s2 q -> reaches fs live s p (show_all ss ++ t) s2 q
| RE_then : forall live s p n a b m m' t s2 q, conditions n a b -> says (w_env s) a m -> says (w_env s) b m' ->
    reaches fs (live && holds n m m') (heard s (live && holds n m m')) InThen t s2 q ->
    reaches fs live s p (if_text n a b ++ t) s2 q
| RE_else : forall live s p n a b m m' yes s1 t s2 q, conditions n a b -> says (w_env s) a m -> says (w_env s) b m' ->
    every well_formed yes -> acts_all fs (live && holds n m m') (heard s (live && holds n m m')) yes s1 ->
    reaches fs (live && negb (holds n m m')) (heard s1 (live && negb (holds n m m'))) InElse t s2 q ->
    reaches fs live s p (if_text n a b ++ show_all yes ++ lit "else" ++ nl ++ t) s2 q.

(** Anything without `#` and backslash; nothing but spaces; a word in upper or lower case. *)
Definition anything (r : str) : Prop := Forall (fun c => ordinary c \/ c = dollar) r.
(** The rest of a line; there may be carriage returns in it. *)
Definition line_rest (r : str) : Prop := Forall (fun c => ordinary c \/ In c [13; 36]%N) r.
Definition only_spaces (r : str) : Prop := Forall (fun c => c = c_space) r.
Definition spelled (k : string) (w : str) : Prop := List.map ascii_lower w = lit k.

(** The value can be stored: `:=` expands it. *)
Definition storable_value (E : wenv) (o : operator) (e : wexpr) : Prop := match o with ONow => exists m, says E e m | _ => True end.
(** Values without tabs, backslashes and the like. *)
Definition short_value (e : wexpr) : Prop := made_of ordinary e /\ not_blank_first (show e).

(** What closes no parenthesis that was opened before it. *)
Definition stays_open (r : str) : Prop := forall p q, r = p ++ q -> count_occ N.eq_dec p close_paren <= count_occ N.eq_dec p open_paren.

(** [stops fs s p l]: in the state [s] and at the place [p] the line [l] ends the program. *)
Inductive stops (fs : str -> file) : wstate -> place -> str -> Prop :=
  (* `ifdef x`, even in a branch that is not taken *)
| SP_ifdef : forall s p k w r, In k ["ifdef"; "ifndef"]%string -> spelled k w -> line_rest r -> stops fs s p (w ++ r)
  (* `else ifeq (a,b)`, `elsewhere = 1` *)
| SP_extra : forall s p k w r, In k ["else"; "endif"]%string -> spelled k w -> line_rest r -> ~ only_spaces r -> stops fs s p (w ++ r)
| SP_else : forall s p w r, spelled "else" w -> only_spaces r -> p <> InThen -> stops fs s p (w ++ r)
| SP_endif : forall s w r, spelled "endif" w -> only_spaces r -> stops fs s Top (w ++ r)
  (* the others, if lines are not being ignored; `x :=` *)
| SP_no_value : forall s p x r, w_deaf s = false -> name x -> only_spaces r -> stops fs s p (x ++ lit " :=" ++ r)
  (* `override x = 1` *)
| SP_modified : forall s p k x o e, w_deaf s = false -> In k ["export "; "override "; "private "]%string -> name x -> value_expr e ->
    storable_value (w_env s) o e -> stops fs s p (lit k ++ x ++ show_op o ++ show e)
| SP_undefine : forall s p c r, w_deaf s = false -> word_char c -> anything r -> stops fs s p (lit "undefine " ++ c :: r)
| SP_export : forall s p xs, w_deaf s = false -> xs <> [] -> Forall name xs -> stops fs s p (lit "export " ++ join c_space xs)
| SP_directive : forall s p k e, w_deaf s = false -> In k ["unexport "; "vpath "; "load "; "-load "]%string -> made_of dep_char e ->
    stops fs s p (lit k ++ show e)
  (* `t: x = 1` *)
| SP_target_variable : forall s p ts (double : bool) x o e, w_deaf s = false -> ts <> [] -> Forall name ts -> name x -> short_value e ->
    ~ In semicolon (show e) -> storable_value (w_env s) o e ->
    stops fs s p (join c_space ts ++ lit (if double then ":: " else ": ") ++ x ++ show_op o ++ show e)
  (* `t: d;x=1 cmd`: a command directly after the semicolon, beginning with an assignment *)
| SP_command : forall s p ts (double : bool) d x e, w_deaf s = false -> ts <> [] -> Forall name ts -> Forall word_char d -> Forall word_char x -> short_value e ->
    stops fs s p (join c_space ts ++ lit (if double then ":: " else ": ") ++ d ++ semicolon :: x ++ equals :: show e)
  (* `t.o: %.o: %.c`, a colon in the value of a dependency *)
| SP_static : forall s p ts (double : bool) e d, w_deaf s = false -> ts <> [] -> Forall name ts ->
    made_of (fun c => dep_char c \/ In c [37; 58]%N) e -> unreserved (trim_start (show e)) -> says (w_env s) e d ->
    In colon d -> (forall c, In c d -> ~ In c [59; 92]%N) ->
    stops fs s p (join c_space ts ++ lit (if double then ":: " else ": ") ++ show e)
  (* anything after `endef` *)
| SP_endef : forall s p x body r, w_deaf s = false -> name x -> nested 1 body -> Forall ordinary r -> ~ only_spaces r ->
    stops fs s p (lit "define " ++ x ++ nl ++ concat (List.map (fun e => show e ++ nl) body) ++ lit "endef" ++ r)
  (* a reference that is not closed: `x = a $(y`; in a recipe, even in a branch that is not taken; `include $(y` *)
| SP_unclosed : forall s p x o e r, w_deaf s = false -> name x -> made_of ordinary e -> not_blank_first (show e) -> anything r -> stays_open r ->
    stops fs s p (x ++ show_op o ++ show e ++ lit "$(" ++ r)
| SP_unclosed_recipe : forall s p o e r, w_open s = Some o -> made_of ordinary e -> anything r -> stays_open r ->
    stops fs s p (c_tab :: show e ++ lit "$(" ++ r)
| SP_unclosed_directive : forall s p k e r, w_deaf s = false -> In k ["include "; "-include "; "sinclude "; "unexport "; "vpath "; "load "; "-load "]%string ->
    made_of dep_char e -> anything r -> ~ In equals r -> stays_open r -> stops fs s p (lit k ++ show e ++ lit "$(" ++ r)
  (* in the body of a definition *)
| SP_unclosed_body : forall s p x body e r, w_deaf s = false -> name x -> nested 1 body -> made_of ordinary e -> anything r -> stays_open r ->
    stops fs s p (lit "define " ++ x ++ nl ++ concat (List.map (fun e => show e ++ nl) body) ++ show e ++ lit "$(" ++ r)
  (* `ifeq "$(x" "a"`, even in a branch that is not taken *)
| SP_unclosed_condition : forall s p k w q e r v, In k ["ifeq"; "ifneq"]%string -> spelled k w -> In q [34; 39]%N -> made_of ordinary e -> anything r ->
    ~ In q (show e ++ r) -> stays_open r -> line_rest v -> stops fs s p (w ++ c_space :: q :: (show e ++ lit "$(" ++ r) ++ q :: v)
  (* `t: a $(y`, `t: a; echo $(y` *)
| SP_unclosed_dependencies : forall s p ts (double : bool) e r, w_deaf s = false -> ts <> [] -> Forall name ts -> made_of dep_char e ->
    anything r -> ~ In equals r -> ~ In semicolon r -> stays_open r -> unreserved (trim_start (show e ++ lit "$(" ++ r)) ->
    stops fs s p (join c_space ts ++ lit (if double then ":: " else ": ") ++ show e ++ lit "$(" ++ r)
| SP_unclosed_command : forall s p ts (double : bool) d e r, w_deaf s = false -> ts <> [] -> Forall name ts -> Forall word_char d -> made_of ordinary e ->
    anything r -> ~ In equals (show e ++ r) -> stays_open r -> unreserved (d ++ semicolon :: show e ++ lit "$(" ++ r) ->
    stops fs s p (join c_space ts ++ lit (if double then ":: " else ": ") ++ d ++ semicolon :: show e ++ lit "$(" ++ r)
| SP_include : forall s p (soft : bool) e d, w_deaf s = false -> made_of dep_char e -> says (w_env s) e d ->
    (forall c, In c d -> ~ In c [0; 92]%N) -> include_stops fs soft (finish s) (words d) ->
    stops fs s p (lit (if soft then "-include " else "include ") ++ show e)
  (* a file that is missing (for `include`) or cannot be read, or that ends the program itself *)
with include_stops (fs : str -> file) : bool -> wstate -> list str -> Prop :=
| IS_missing : forall s n k ns, fs n = FOpenError k -> include_stops fs false s (n :: ns)
| IS_unreadable : forall soft s n k ns, fs n = FReadError k -> include_stops fs soft s (n :: ns)
| IS_inside : forall soft s n t ns, fs n = FText t -> file_stops fs (begun s) t -> include_stops fs soft s (n :: ns)
| IS_later : forall soft s n ns t ss s1, fs n = FText t -> written ss t -> every well_formed ss -> acts_all fs true (begun s) ss s1 ->
    include_stops fs soft (begun s1) ns -> include_stops fs soft s (n :: ns)
| IS_skip : forall s n k ns, fs n = FOpenError k -> include_stops fs true s ns -> include_stops fs true s (n :: ns)
  (* such a line anywhere in a file, whatever follows it; the file may begin with a comment *)
with file_stops (fs : str -> file) : wstate -> str -> Prop :=
| FS_plain : forall s pre s1 p l rest, reaches fs true s Top pre s1 p -> stops fs s1 p l -> asciis rest -> ~ In c_hash rest ->
    file_stops fs s (pre ++ l ++ nl ++ rest)
| FS_comment : forall s c l t, asciis c -> (c = [] \/ exists q, c = q ++ [c_hash]) -> anything l -> ~ In c_hash t -> file_stops fs s t ->
    file_stops fs s (c_hash :: c ++ l ++ nl ++ t).
Scheme stops_mut := Induction for stops Sort Prop with include_stops_mut := Induction for include_stops Sort Prop with file_stops_mut := Induction for file_stops Sort Prop.
Combined Scheme stops_all from stops_mut, include_stops_mut, file_stops_mut.
