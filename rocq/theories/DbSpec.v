(** Specification vocabulary for names, the database and the visitor. *)
From Verif Require Import Base LocModel EvdModel AstModel EvdSpec.
Local Open Scope nat_scope.

(** * Name cache histories *)
Inductive name_op := InternFile (s : str) | InternVariable (s : str).
Definition name_step (n : names) (o : name_op) : names :=
  match o with
  | InternFile s => fst (intern_file_name n s)
  | InternVariable s => fst (intern_variable_name n s)
  end.
Definition name_run (n : names) (ops : list name_op) : names := fold_left name_step ops n.
Definition names_new : names := Names [] [].

(** * Variable store histories: the four ways the database changes *)
Inductive db_op :=
| SetGlobal (name : N) (v : vparams)
| AppendGlobal (name : N) (l : location) (v : vparams) (space : bool)
| SetForTarget (target name : N) (v : vparams)
| AddRule (r : rule).
Definition db_step (d : db) (o : db_op) : db :=
  match o with
  | SetGlobal n v => set_variable d n v
  | AppendGlobal n l v sp => append_to_variable d n l v sp
  | SetForTarget t n v => set_variable_for_target d t n v
  | AddRule r => add_rule d r
  end.
Definition db_run (d : db) (ops : list db_op) : db := fold_left db_step ops d.

(** Does an operation write the global variable [n], the variable [n] of target
    [t], the rule of target [t]? *)
Definition writes_global (n : N) (o : db_op) : Prop :=
  match o with SetGlobal m _ | AppendGlobal m _ _ _ => m = n | _ => False end.
Definition writes_target (t n : N) (o : db_op) : Prop :=
  match o with SetForTarget u m _ => u = t /\ m = n | _ => False end.
Definition writes_rule (t : N) (o : db_op) : Prop :=
  match o with AddRule r => r_fname r = t | _ => False end.

(** * Rule definitions, by text *)

(** What a client sees of a rule: dependencies, recipe, type. *)
Record rule_view := RView { rv_deps : list block; rv_recipe : list ast; rv_type : rule_type }.
Definition view (r : rule) : rule_view := RView (r_deps r) (r_recipe r) (r_type r).

(** The rule of the target called [t]. *)
Definition rule_of (n : names) (d : db) (t : str) : option rule :=
  match file_name n t with Some i => get_rule d i | None => None end.

(** One mention of a target in a rule definition. *)
Definition mention (p : protorule) (old : option rule_view) : rule_view :=
  match pr_recipe p, old with
  | [], Some r => RView (rv_deps r ++ pr_deps p) (rv_recipe r) (rv_type r)
  | _, _ => RView (pr_deps p) (pr_recipe p) (pr_type p)
  end.

(** How often a text is among the targets. *)
Fixpoint mentions (t : str) (targets : list block) : nat :=
  match targets with
  | [] => 0
  | b :: l => (if list_eq_dec N.eq_dec (block_text b) t then 1 else 0) + mentions t l
  end.

Fixpoint iter_mention (k : nat) (p : protorule) (old : option rule_view) : option rule_view :=
  match k with 0 => old | S k' => iter_mention k' p (Some (mention p old)) end.

(** The rule of [t] after a history of definitions. *)
Fixpoint rule_after (t : str) (old : option rule_view) (ps : list protorule) : option rule_view :=
  match ps with
  | [] => old
  | p :: ps' => rule_after t (iter_mention (mentions t (pr_targets p)) p old) ps'
  end.

(** Running a history of definitions. *)
Fixpoint define_rules (n : names) (d : db) (ps : list protorule) : res (names * db) :=
  match ps with
  | [] => Ok (n, d)
  | p :: ps' => let* '(n, d) := from_protorule d n p in define_rules n d ps'
  end.

(** A block whose text can be read back (C02, C09: every well-formed ASCII block,
    and every block without slices). *)
Definition readable (b : block) : Prop := block_into_string b = Ok (block_text b).
Definition readable_rule (p : protorule) : Prop :=
  Forall readable (pr_targets p) /\ Forall readable (pr_deps p).

(** * Nodes of an expression, by path *)
Definition children (a : ast) : list ast :=
  match a with
  | AEmpty _ | AConst _ _ | APre _ _ => []
  | AConcat _ l => l
  | AVar _ c | AEval _ c | AStrip _ c | AWords _ c => [c]
  | AWord _ i w => [i; w]
  end.

(** The node reached by taking children number [p]. *)
Fixpoint node_at (p : list nat) (a : ast) : option ast :=
  match p with
  | [] => Some a
  | k :: p' => match nth_error (children a) k with Some c => node_at p' c | None => None end
  end.

(** Document order on paths: a node comes before its descendants, and siblings
    from left to right. *)
Fixpoint path_before (p q : list nat) : Prop :=
  match p, q with
  | [], _ :: _ => True
  | i :: p', j :: q' => i < j \/ (i = j /\ path_before p' q')
  | _, [] => False
  end.

(** Paths listed in document order. *)
Definition ordered_paths (ps : list (list nat)) : Prop := forall i j p q, i < j ->
  nth_error ps i = Some p -> nth_error ps j = Some q -> path_before p q.

(** The nodes handed to [visit_ast], in order. *)
Fixpoint visited (l : list visit) : list ast :=
  match l with
  | [] => []
  | VAst a :: l' => a :: visited l'
  | _ :: l' => visited l'
  end.

(** The specific callback for a node. *)
Definition callback (a : ast) : visit :=
  match a with
  | AEmpty _ => VEmpty
  | AConst _ s => VConstant s
  | APre _ b => VPre b
  | AConcat _ l => VConcat l
  | AVar _ n => VVariableReference n
  | AEval _ c => VEval c
  | AStrip _ c => VStrip c
  | AWord _ i w => VWord i w
  | AWords _ w => VWords w
  end.

(** Ids are only ever added: every file name keeps its id. *)
Definition grows (n n' : names) : Prop := forall t i, file_name n t = Some i -> file_name n' t = Some i.

(** The dependency ids of a rule are the ids of its dependency texts. *)
Definition deps_ok (n : names) (deps : list block) (dn : list N) : Prop :=
  (forall b, In b deps -> exists i, file_name n (block_text b) = Some i /\ In i dn) /\
  (forall i, In i dn -> exists b, In b deps /\ file_name n (block_text b) = Some i).

(** A rule is stored under the id of its target text. *)
Definition rule_ok (n : names) (k : N) (r : rule) : Prop :=
  r_fname r = k /\ file_name n (block_text (r_target r)) = Some k /\ deps_ok n (r_deps r) (r_depnames r).

(** All stored rules, one per target. *)
Definition rules_ok (n : names) (rules : map rule) : Prop :=
  NoDup (List.map fst rules) /\ forall k r, mget k rules = Some r -> rule_ok n k r.
