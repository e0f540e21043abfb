(** Model of src/ast/mod.rs (expression trees), src/eval/mod.rs (variables),
    src/ast/visit.rs (visitors) and the name cache and database of src/lib.rs. *)
From Verif Require Import Base LocModel EvdModel.
Local Notation map := Base.map.

(** src/ast/mod.rs:21-26 [AstNode] with 194-230 [AstChildren]: the node's source
    location is the first argument of every constructor. *)
Inductive ast : Type :=
| AEmpty (l : location)
| AConst (l : location) (s : located)
| APre (l : location) (b : block)
| AConcat (l : location) (nodes : list ast)
| AVar (l : location) (name : ast)
| AEval (l : location) (content : ast)
| AStrip (l : location) (content : ast)
| AWord (l : location) (index words : ast)
| AWords (l : location) (words : ast).

(** src/ast/mod.rs:30-32 [AstNode::location]. *)
Definition ast_location (a : ast) : location :=
  match a with
  | AEmpty l | AConst l _ | APre l _ | AConcat l _ | AVar l _ | AEval l _
  | AStrip l _ | AWord l _ _ | AWords l _ => l
  end.

(** src/ast/mod.rs:234-239 [empty]. *)
Definition a_empty : ast := AEmpty Synthetic.

(** src/ast/mod.rs:243-249 [constant]. *)
Definition a_constant (v : located) : ast := AConst (l_loc v) v.

(** src/ast/mod.rs:253-258, 280-321: the other constructors are [APre], [AVar],
    [AEval], [AStrip], [AWords] and [AWord] themselves. *)

(** `node.children.as_ref() != &AstChildren::Empty` (src/ast/mod.rs:267). *)
Definition a_nonempty (a : ast) : bool := match a with AEmpty _ => false | _ => true end.

(** src/ast/mod.rs:265-276 [collapsing_concat]. *)
Definition collapsing_concat (l : location) (v : list ast) : ast :=
  match filter a_nonempty v with
  | [a] => a
  | v' => AConcat l v'
  end.

(** * Names *)

(** src/lib.rs:427-432 [NameCache]: two `StringInterner`s, modelled as the list
    of strings interned so far; the symbol of a string is its index. *)
Record names := Names { n_files : list str; n_vars : list str }.

(** `StringInterner::get` (crate string-interner; src/lib.rs:447-449, 463-465). *)
Fixpoint interned (s : str) (l : list str) : option nat :=
  match l with
  | [] => None
  | t :: l' => if str_eqb s t then Some 0 else option_map S (interned s l')
  end.

(** `StringInterner::get_or_intern` (crate string-interner; src/lib.rs:436-444,
    457-460). *)
Definition get_or_intern (s : str) (l : list str) : list str * N :=
  match interned s l with
  | Some i => (l, N.of_nat i)
  | None => (l ++ [s], N.of_nat (length l))
  end.

(** `StringInterner::resolve` (crate string-interner; src/lib.rs:452-454). *)
Definition resolve (l : list str) (i : N) : option str := nth_error l (N.to_nat i).

(** src/lib.rs:436-444 [intern_file_name]. *)
Definition intern_file_name (n : names) (s : str) : names * N :=
  let '(l, i) := get_or_intern s (n_files n) in (Names l (n_vars n), i).
(** src/lib.rs:447-449 [file_name]. *)
Definition file_name (n : names) (s : str) : option N := option_map N.of_nat (interned s (n_files n)).
(** src/lib.rs:452-454 [resolve_file_name]. *)
Definition resolve_file_name (n : names) (i : N) : option str := resolve (n_files n) i.
(** src/lib.rs:457-460 [intern_variable_name]. *)
Definition intern_variable_name (n : names) (s : str) : names * N :=
  let '(l, i) := get_or_intern s (n_vars n) in (Names (n_files n) l, i).
(** src/lib.rs:463-465 [variable_name]. *)
Definition variable_name (n : names) (s : str) : option N := option_map N.of_nat (interned s (n_vars n)).

(** * Database *)

(** src/eval/mod.rs:11-21 [Flavor]. *)
Inductive flavor := FlSimple | FlRecursive | FlConditional | FlShell.
(** src/eval/mod.rs:25-40 [Origin]. *)
Inductive origin :=
| OrDefault | OrEnvironment | OrFile | OrEnvironmentOverride | OrCommand | OrAutomatic | OrInvalid.

(** src/eval/mod.rs:44-58 [VariableParameters]. *)
Record vparams := VParams { v_ast : ast; v_flavor : flavor; v_origin : origin }.

(** src/lib.rs:148-153 [RuleType]. *)
Inductive rule_type := RtStandard | RtDoubleColon.

(** src/lib.rs:169-182 [Rule]; [Command] (142) and [Recipe] (157) are the list of
    command expressions. *)
Record rule := Rule {
  r_target : block;
  r_fname : N;
  r_deps : list block;
  r_depnames : list N;
  r_recipe : list ast;
  r_type : rule_type
}.

(** src/parsers/mod.rs:69-78 [ProtoRule]. *)
Record protorule := ProtoRule {
  pr_targets : list block;
  pr_deps : list block;
  pr_recipe : list ast;
  pr_type : rule_type
}.

(** src/lib.rs:221-228 [Database]. *)
Record db := Db {
  db_vars : map vparams;
  db_tvars : map (map vparams);
  db_rules : map rule
}.
(** src/lib.rs:219-228: the derived `Default` of [Database]. *)
Definition db_empty : db := Db [] [] [].

(** src/lib.rs:232-234 [rules]. *)
Definition db_all_rules (d : db) : list rule := List.map snd (db_rules d).

(** src/lib.rs:237-241 [add_rule]. *)
Definition add_rule (d : db) (r : rule) : db :=
  Db (db_vars d) (db_tvars d) (mset (r_fname r) r (db_rules d)).

(** src/lib.rs:250-253: intern the dependency names; a panic if the text of a
    dependency cannot be read. *)
Fixpoint intern_deps (n : names) (deps : list block) (acc : list N) : res (names * list N) :=
  match deps with
  | [] => Ok (n, acc)
  | d :: deps' =>
      let* s := block_into_string d in
      let '(n', i) := intern_file_name n s in
      intern_deps n' deps' (set_add i acc)
  end.

(** src/lib.rs:259-281: definitions without recipe. *)
Definition extend_rule (r : rule) (deps : list block) (dn : list N) : rule :=
  Rule (r_target r) (r_fname r) (r_deps r ++ deps) (set_union (r_depnames r) dn)
       (r_recipe r) (r_type r).

(** src/lib.rs:261-281 and 289-309: one target.  [p] is the protorule, [dn] its
    interned dependencies. *)
Definition protorule_target (p : protorule) (dn : list N) (rules : map rule) (target : block) (fn : N)
  : map rule :=
  let new := Rule target fn (pr_deps p) dn (pr_recipe p) (pr_type p) in
  match pr_recipe p with
  | [] =>
      match mget fn rules with
      | Some r => mset fn (extend_rule r (pr_deps p) dn) rules
      | None => mset fn new rules
      end
  | _ => mset fn new rules
  end.

(** src/lib.rs:259-311: the loops over the targets. *)
Fixpoint protorule_targets (p : protorule) (dn : list N) (n : names) (rules : map rule)
  (targets : list block) : res (names * map rule) :=
  match targets with
  | [] => Ok (n, rules)
  | t :: targets' =>
      let* s := block_into_string t in
      let '(n', fn) := intern_file_name n s in
      protorule_targets p dn n' (protorule_target p dn rules t fn) targets'
  end.

(** src/lib.rs:244-313 [from_protorule]. *)
Definition from_protorule (d : db) (n : names) (p : protorule) : res (names * db) :=
  let* '(n1, dn) := intern_deps n (pr_deps p) [] in
  let* '(n2, rules) := protorule_targets p dn n1 (db_rules d) (pr_targets p) in
  Ok (n2, Db (db_vars d) (db_tvars d) rules).

(** src/lib.rs:317-322 [set_variable]. *)
Definition set_variable (d : db) (name : N) (v : vparams) : db :=
  Db (mset name v (db_vars d)) (db_tvars d) (db_rules d).

(** src/lib.rs:338-353: the combination of the old and the new value. *)
Definition a_space : ast := a_constant (Located Synthetic [c_space]).
(** src/lib.rs:338-353. *)
Definition append_value (loc : location) (old new : ast) (implicit_space : bool) : ast :=
  collapsing_concat loc (if implicit_space then [old; a_space; new] else [old; new]).

(** src/lib.rs:329-356 [append_to_variable]. *)
Definition append_to_variable (d : db) (name : N) (loc : location) (content : vparams)
  (implicit_space : bool) : db :=
  let v :=
    match mget name (db_vars d) with
    | Some old =>
        VParams (append_value loc (v_ast old) (v_ast content) implicit_space)
                (v_flavor old) (v_origin old)
    | None => content
    end in
  Db (mset name v (db_vars d)) (db_tvars d) (db_rules d).

(** src/lib.rs:359-372 [set_variable_for_target]. *)
Definition set_variable_for_target (d : db) (target name : N) (v : vparams) : db :=
  let m := match mget target (db_tvars d) with Some m => m | None => [] end in
  Db (db_vars d) (mset target (mset name v m) (db_tvars d)) (db_rules d).

(** src/lib.rs:375-379 [get_variable]: the view's parameters. *)
Definition get_variable (d : db) (name : N) : option vparams := mget name (db_vars d).

(** src/lib.rs:382-391 [get_variable_for_target]. *)
Definition get_variable_for_target (d : db) (target name : N) : option vparams :=
  match mget target (db_tvars d) with Some m => mget name m | None => None end.

(** src/lib.rs:394-396 [get_rule]. *)
Definition get_rule (d : db) (target : N) : option rule := mget target (db_rules d).

(** * Visitors *)

(** src/ast/visit.rs:13-157: the calls made on a visitor. *)
Inductive visit :=
| VAst (a : ast) | VEmpty | VConstant (s : located) | VPre (b : block) | VConcat (l : list ast)
| VVariableReference (a : ast) | VEval (a : ast) | VStrip (a : ast) | VWord (i w : ast)
| VWords (a : ast).

(** The calls received, in order, by a visitor that overrides nothing (each
    [visit_*] forwards to [super_*], visit.rs:21-64 and 67-153), starting with
    [visit_ast]. *)
Fixpoint visit_ast (a : ast) : list visit :=
  VAst a ::
  match a with
  | AEmpty _ => [VEmpty]
  | AConst _ s => [VConstant s]
  | APre _ b => [VPre b]
  | AConcat _ nodes => VConcat nodes :: flat_map visit_ast nodes
  | AVar _ n => VVariableReference n :: visit_ast n
  | AEval _ c => VEval c :: visit_ast c
  | AStrip _ c => VStrip c :: visit_ast c
  | AWord _ i w => VWord i w :: visit_ast i ++ visit_ast w
  | AWords _ c => VWords c :: visit_ast c
  end.
