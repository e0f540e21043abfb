(** Property theorems about names, the variable store, rules and the visitor
    (C12, C13, C15, C43, C45, C46).  The histories ([name_op], [db_op]), the
    views of rules and the paths are defined in [DbSpec]. *)
From Coq Require Import String.
From Verif Require Import Base LocModel EvdModel AstModel EvdSpec DbSpec DbProofs.
Open Scope string_scope.
Open Scope list_scope.

(** C12: interning the same text again, after any further interning, gives the
    same id and changes nothing.  (In any state, for variables and files.) *)
Theorem C12_same_text_same_id : forall n s ops,
  (forall n1 i, intern_variable_name n s = (n1, i) ->
     intern_variable_name (name_run n1 ops) s = (name_run n1 ops, i)) /\
  (forall n1 i, intern_file_name n s = (n1, i) ->
     intern_file_name (name_run n1 ops) s = (name_run n1 ops, i)).
Proof. exact names_stable. Qed.
Print Assumptions C12_same_text_same_id.

(** C12: two interning calls, however far apart, give the same id exactly if the
    texts are the same. *)
Theorem C12_ids_identify_texts : forall n s t ops,
  (forall n1 i n2 j, intern_variable_name n s = (n1, i) -> intern_variable_name (name_run n1 ops) t = (n2, j) ->
     (i = j <-> s = t)) /\
  (forall n1 i n2 j, intern_file_name n s = (n1, i) -> intern_file_name (name_run n1 ops) t = (n2, j) ->
     (i = j <-> s = t)).
Proof. exact names_injective. Qed.
Print Assumptions C12_ids_identify_texts.

(** C12: an id resolves to its text, for ever. *)
Theorem C12_resolve : forall n s n1 i ops, intern_file_name n s = (n1, i) ->
  resolve_file_name (name_run n1 ops) i = Some s.
Proof. exact names_resolve. Qed.
Print Assumptions C12_resolve.

(** C12: looking a name up finds exactly the names interned before, as variable
    or as file respectively. *)
Theorem C12_lookup_knows_interned : forall ops s,
  (variable_name (name_run names_new ops) s <> None <-> In (InternVariable s) ops) /\
  (file_name (name_run names_new ops) s <> None <-> In (InternFile s) ops).
Proof. exact names_known. Qed.
Print Assumptions C12_lookup_knows_interned.

Example C12_example :
  let n := name_run names_new [InternVariable (lit "a"); InternFile (lit "b"); InternVariable (lit "b")] in
  variable_name n (lit "a") = Some 0%N /\ variable_name n (lit "b") = Some 1%N /\
  file_name n (lit "b") = Some 0%N /\ file_name n (lit "a") = None.
Proof. vm_compute. auto. Qed.

(** C13: reading a global variable, a variable of a target, a rule returns what
    was last written there, whatever else happened before and after. *)
Theorem C13_last_write_wins : forall d before after,
  (forall n v, Forall (fun o => ~ writes_global n o) after ->
     get_variable (db_run d (before ++ SetGlobal n v :: after)) n = Some v) /\
  (forall t n v, Forall (fun o => ~ writes_target t n o) after ->
     get_variable_for_target (db_run d (before ++ SetForTarget t n v :: after)) t n = Some v) /\
  (forall r, Forall (fun o => ~ writes_rule (r_fname r) o) after ->
     get_rule (db_run d (before ++ AddRule r :: after)) (r_fname r) = Some r).
Proof. exact last_write. Qed.
Print Assumptions C13_last_write_wins.

(** C13: writes elsewhere are not seen. *)
Theorem C13_other_writes_invisible : forall ops d,
  (forall n, Forall (fun o => ~ writes_global n o) ops -> get_variable (db_run d ops) n = get_variable d n) /\
  (forall t n, Forall (fun o => ~ writes_target t n o) ops ->
     get_variable_for_target (db_run d ops) t n = get_variable_for_target d t n) /\
  (forall t, Forall (fun o => ~ writes_rule t o) ops -> get_rule (db_run d ops) t = get_rule d t).
Proof. exact run_other. Qed.
Print Assumptions C13_other_writes_invisible.

(** C13: in a database filled from empty, a name is absent exactly if it was
    never written in that scope; in particular a target never sees globals. *)
Theorem C13_absent_iff_never_written : forall ops,
  (forall n, Forall (fun o => ~ writes_global n o) ops <-> get_variable (db_run db_empty ops) n = None) /\
  (forall t n, Forall (fun o => ~ writes_target t n o) ops <->
     get_variable_for_target (db_run db_empty ops) t n = None) /\
  (forall t, Forall (fun o => ~ writes_rule t o) ops <-> get_rule (db_run db_empty ops) t = None).
Proof. exact never_written. Qed.
Print Assumptions C13_absent_iff_never_written.

(** C13: appending writes a combination of the old and the new value, and keeps
    flavor and origin (its text is the subject of C14). *)
Theorem C13_append_write : forall d before after n l v sp, Forall (fun o => ~ writes_global n o) after ->
  get_variable (db_run d (before ++ AppendGlobal n l v sp :: after)) n =
  Some (match get_variable (db_run d before) n with
        | None => v
        | Some old => VParams (append_value l (v_ast old) (v_ast v) sp) (v_flavor old) (v_origin old)
        end).
Proof. exact append_write. Qed.
Print Assumptions C13_append_write.

Definition ex_value (s : string) : vparams := VParams (a_constant (Located Synthetic (lit s))) FlRecursive OrFile.
Example C13_example :
  let ops := [SetGlobal 1 (ex_value "a"); SetForTarget 7 1 (ex_value "b"); SetGlobal 2 (ex_value "c")] in
  Forall (fun o => ~ writes_global 1 o) (skipn 1 ops) /\
  get_variable (db_run db_empty ops) 1 = Some (ex_value "a") /\
  get_variable_for_target (db_run db_empty ops) 7 1 = Some (ex_value "b") /\
  get_variable_for_target (db_run db_empty ops) 7 2 = None.
Proof. vm_compute. repeat constructor; intros H; repeat (discriminate || destruct H). Qed.

(** C15: after any history of rule definitions, the rule of every target is the
    one obtained by going through its mentions in order: a mention with a recipe
    replaces the rule, one without appends its dependencies to an existing rule
    (keeping recipe and type) and otherwise creates it ([rule_after]). *)
Theorem C15_rule_history : forall ps n, Forall readable_rule ps ->
  exists n' d', define_rules n db_empty ps = Ok (n', d') /\
    forall t, option_map view (rule_of n' d' t) = rule_after t None ps.
Proof. exact rule_history. Qed.
Print Assumptions C15_rule_history.

Definition ex_name (s : string) : block := Blk [] [ev_constant (Located (SourceLocation 1 1 0) (lit s))].
Definition ex_cmd (s : string) : ast := a_constant (Located (SourceLocation 2 2 0) (lit s)).
Definition ex_rules : list protorule :=
  [ProtoRule [ex_name "foo"] [ex_name "a"] [ex_cmd "cc"] RtStandard;
   ProtoRule [ex_name "foo"; ex_name "bar"] [ex_name "b"] [] RtDoubleColon;
   ProtoRule [ex_name "bar"] [ex_name "c"] [] RtStandard].
Example C15_example : Forall readable_rule ex_rules /\
  rule_after (lit "foo") None ex_rules = Some (RView [ex_name "a"; ex_name "b"] [ex_cmd "cc"] RtStandard) /\
  rule_after (lit "bar") None ex_rules = Some (RView [ex_name "b"; ex_name "c"] [] RtDoubleColon) /\
  rule_after (lit "a") None ex_rules = None.
Proof. split; [repeat constructor|vm_compute; auto]. Qed.

(** C45: a rule with several targets.  With a recipe every target gets exactly
    these dependencies, recipe and type; without one, every target is extended
    or created; all other targets, and all variables, are untouched. *)
Theorem C45_every_target_defined : forall n ps p, Forall readable_rule (ps ++ [p]) ->
  exists n1 d1 n2 d2, define_rules n db_empty ps = Ok (n1, d1) /\ from_protorule d1 n1 p = Ok (n2, d2) /\
  (pr_recipe p <> [] -> forall b, In b (pr_targets p) ->
     option_map view (rule_of n2 d2 (block_text b)) = Some (RView (pr_deps p) (pr_recipe p) (pr_type p))) /\
  (pr_recipe p = [] -> NoDup (List.map block_text (pr_targets p)) -> forall b, In b (pr_targets p) ->
     option_map view (rule_of n2 d2 (block_text b)) =
     match rule_of n1 d1 (block_text b) with
     | None => Some (RView (pr_deps p) [] (pr_type p))
     | Some old => Some (RView (r_deps old ++ pr_deps p) (r_recipe old) (r_type old))
     end) /\
  (forall t, (forall b, In b (pr_targets p) -> block_text b <> t) -> rule_of n2 d2 t = rule_of n1 d1 t) /\
  (forall v, get_variable d2 v = get_variable d1 v) /\
  (forall f v, get_variable_for_target d2 f v = get_variable_for_target d1 f v).
Proof. exact multi_target. Qed.
Print Assumptions C45_every_target_defined.

Example C45_example : Forall readable_rule (firstn 1 ex_rules ++ [ProtoRule [ex_name "x"; ex_name "y"] [ex_name "z"] [ex_cmd "ld"] RtStandard]).
Proof. repeat constructor. Qed.

(** C46: the list of all rules has one rule per target, it is the set of rules
    found by target, and a rule's target name, file id and set of dependency ids
    all agree with its target and dependency texts. *)
Theorem C46_rule_bookkeeping : forall ps n, Forall readable_rule ps ->
  exists n' d', define_rules n db_empty ps = Ok (n', d') /\
  NoDup (List.map r_fname (db_all_rules d')) /\
  (forall r, In r (db_all_rules d') <-> exists t, rule_of n' d' t = Some r) /\
  (forall t r, rule_of n' d' t = Some r ->
     block_text (r_target r) = t /\ file_name n' t = Some (r_fname r) /\
     forall i, In i (r_depnames r) <-> exists b, In b (r_deps r) /\ file_name n' (block_text b) = Some i).
Proof. exact rule_names. Qed.
Print Assumptions C46_rule_bookkeeping.

Example C46_example :
  match define_rules names_new db_empty ex_rules with
  | Ok (n, d) => List.map (fun r => (block_text (r_target r), r_fname r, r_depnames r)) (db_all_rules d)
  | _ => []
  end = [(lit "bar", 3%N, [2; 4]%N); (lit "foo", 1%N, [0; 2]%N)].
Proof. vm_compute. reflexivity. Qed.

(** C43: a visitor that overrides nothing is called with every node of the
    expression exactly once, in document order: the visited nodes are the nodes
    at the paths of the expression, listed without repetition or omission, each
    before its descendants and siblings from left to right. *)
Theorem C43_visits_each_node_once : forall a, exists ps,
  List.map (fun p => node_at p a) ps = List.map Some (visited (visit_ast a)) /\
  ordered_paths ps /\ (forall p, node_at p a <> None <-> In p ps).
Proof. exact visits_all. Qed.
Print Assumptions C43_visits_each_node_once.

(** C43: and each node's visit is followed at once by the callback for its kind,
    with its content. *)
Theorem C43_callback_follows : forall a k b, nth_error (visit_ast a) k = Some (VAst b) ->
  nth_error (visit_ast a) (S k) = Some (callback b).
Proof. exact visit_callbacks. Qed.
Print Assumptions C43_callback_follows.

Example C43_example :
  let c s := ex_cmd s in
  visited (visit_ast (AWord Synthetic (c "1") (AConcat Synthetic [c "a"; AVar Synthetic (c "b")]))) =
  [AWord Synthetic (c "1") (AConcat Synthetic [c "a"; AVar Synthetic (c "b")]); c "1";
   AConcat Synthetic [c "a"; AVar Synthetic (c "b")]; c "a"; AVar Synthetic (c "b"); c "b"].
Proof. reflexivity. Qed.
