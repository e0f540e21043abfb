(** Concrete cases for the theorems about evaluation, and witnesses for the
    refuted ones. *)
From Coq Require Import String.
From Verif Require Import Base LocModel EvdModel NomModel AstModel ParseModel AstParseModel EngineModel ModelTests EvdSpec ParseSpec DbSpec EvalSpec
  DbProofs EvdProofs ParseProofs2 ParseProofs5 SubstProofs CutProofs EvalProofs EvalProofs2 EvalProofs3 EvalProofs4.
Open Scope string_scope.
Open Scope list_scope.

(** X = a $(Y)   Y = b.c   L = $(L)   and the unused name U. *)
Definition ex_ref (v : string) : ast := reference (loc 1 7) (at_ 1 9 v).
Definition ex_x : ast := AConcat (loc 1 5) [con 1 5 "a "; ex_ref "Y"].
Definition ex_y : ast := con 2 5 "b.c".
Definition ex_world : world :=
  World (Names [lit "f.mk"] [lit "X"; lit "Y"; lit "L"; lit "U"])
        (Db [(0%N, VParams ex_x FlRecursive OrFile); (1%N, VParams ex_y FlRecursive OrFile); (2%N, VParams (ex_ref "L") FlRecursive OrFile)] [] [])
        c_tab.

Ltac ascii_tac := repeat (constructor; [vm_compute; reflexivity|]); constructor.
Ltac ascii_tac ::= unfold asciis; vm_compute; repeat (constructor; [reflexivity|]); try constructor.

Lemma ex_world_ok : world_ok ex_world.
Proof.
  intros id v G. unfold ex_world, get_variable in *. cbn [w_db db_vars w_names n_vars mget] in *.
  repeat match type of G with (if ?b then _ else _) = _ => destruct b eqn:?; [inversion G; subst; rewrite N.eqb_eq in *; subst; split; [cbn; lia|cbn [ast_ok v_ast ex_x ex_y ex_ref reference con a_constant at_ l_str fold_right]; repeat split; ascii_tac]|] end.
  discriminate.
Qed.
Lemma ex_plain : forall l c v, ~ In 58%N (lit v) -> plain (located_marks (at_ l c v)).
Proof.
  intros l c v N. apply plain_no_colon. intros (x & I & E). apply N. apply (in_map fst) in I. fold (chars (located_marks (at_ l c v))) in I.
  rewrite located_chars in I. rewrite E in I. exact I.
Qed.
Ltac no_colon := apply ex_plain; vm_compute; intuition discriminate.

Lemma ex_y_expands : expands (world_env ex_world) (ex_ref "Y") (located_marks (at_ 2 5 "b.c")) [lit "Y"].
Proof. eapply expands_reference; [no_colon|reflexivity|]. apply E_const. Qed.

Lemma ex_x_expands : expands (world_env ex_world) (ex_ref "X")
  (located_marks (at_ 1 5 "a ") ++ located_marks (at_ 2 5 "b.c")) [lit "X"; lit "Y"].
Proof.
  eapply expands_reference; [no_colon|reflexivity|]. apply E_concat. change [lit "Y"] with ([] ++ [lit "Y"]). apply E_cons; [apply E_const|].
  rewrite <- (app_nil_r (located_marks (at_ 2 5 "b.c"))). change [lit "Y"] with ([lit "Y"] ++ []). apply E_cons; [exact ex_y_expands|apply E_nil].
Qed.

(** $(Y:.c=.o) *)
Definition ex_subst : ast := ex_ref "Y:.c=.o".
Lemma ex_subst_expands : exists m, expands (world_env ex_world) ex_subst m [lit "Y"] /\ chars m = lit "b.o".
Proof.
  set (nm := located_marks (at_ 1 9 "Y:.c=.o")).
  set (v := located_marks (at_ 2 5 "b.c")).
  exists (firstn 1 v ++ skipn 5 nm). split; [|reflexivity].
  change [lit "Y"] with ([] ++ chars (firstn 1 nm) :: []).
  apply (E_subst _ _ (AConst (loc 1 7) (at_ 1 9 "Y:.c=.o")) nm [] (firstn 1 nm) (firstn 2 (skipn 2 nm)) (skipn 5 nm) ex_y v []); try reflexivity; try exact I.
  - apply E_const.
  - exists (nth 1 nm (0%N, Synthetic)), (nth 4 nm (0%N, Synthetic)). split; [reflexivity|]. split; [reflexivity|]. split; [reflexivity|]. split.
    + intros (x & I & E). vm_compute in I. intuition (subst; discriminate).
    + intros (x & I & E). vm_compute in I. intuition (subst; discriminate).
  - apply E_const.
  - apply whole_one.
  - exists [], (lit ".c"), [], (skipn 5 nm), [firstn 1 v ++ skipn 5 nm]. split; [|split; [|reflexivity]].
    + apply (P_suffix fst (firstn 2 (skipn 2 nm)) (skipn 5 nm) (firstn 2 (skipn 2 nm)) []). vm_compute. reflexivity.
    + change (subst_words fst v) with [v]. constructor; [|constructor].
      change (firstn 1 v ++ skipn 5 nm) with ([] ++ firstn 1 v ++ skipn 5 nm). apply R_match.
      exists [], (skipn 1 v). split; [reflexivity|]. split; [reflexivity|]. split; [reflexivity|].
      intros p q E. cbn. destruct p as [|c p]; [vm_compute in E; discriminate|cbn; lia].
Qed.

(** * Substitution references that do not do what is documented *)
Ltac wf_blk := unfold wf_block, text_block; repeat constructor; cbn; try lia; ascii_tac.


(** The result for these texts, and a different documented one. *)
Definition sub_wrong (value key repl : block) : Prop :=
  wf_block value /\ wf_block key /\ wf_block repl /\
  exists b out, do_subref [] value key repl = Ok b /\
    intended_out fst (made 32%N) (block_marks key) (block_marks repl) (block_marks value) out /\ chars out <> chars (block_marks b).

Lemma word_out : forall value key repl pk qk pr qr (w : list (N * location)) i j,
  split_at fst blank [] value = [w] -> intended_pattern fst key repl pk qk pr qr ->
  List.map fst (firstn i w) = pk -> List.map fst (skipn j (skipn i w)) = qk ->
  intended_out fst (made 32%N) key repl value (match qr with Some q => pr ++ firstn j (skipn i w) ++ q | None => pr end).
Proof.
  intros value key repl pk qk pr qr w i j Sp P E1 E2.
  exists pk, qk, pr, qr, [match qr with Some q => pr ++ firstn j (skipn i w) ++ q | None => pr end]. split; [exact P|]. split; [|reflexivity].
  rewrite Sp. constructor; [|constructor]. rewrite <- (firstn_skipn i w) at 1. rewrite <- (firstn_skipn j (skipn i w)) at 1. apply I_match; auto.
Qed.

Lemma c23_repeated_suffix : sub_wrong (text_block (lit "a.c.c")) (text_block (lit ".c")) (text_block (lit ".o")).
Proof.
  split; [apply text_block_wf; [discriminate|reflexivity]|]. split; [apply text_block_wf; [discriminate|reflexivity]|]. split; [apply text_block_wf; [discriminate|reflexivity]|].
  eexists. eexists. split; [vm_compute; reflexivity|]. split.
  - eapply (word_out _ _ _ [] (lit ".c") _ _ (block_marks (text_block (lit "a.c.c"))) 0 3); [vm_compute; reflexivity| |reflexivity|reflexivity].
    apply (IP_suffix fst _ _ (block_marks (text_block (lit ".c"))) []). vm_compute. reflexivity.
  - vm_compute. discriminate.
Qed.

Lemma c23_empty_key : sub_wrong (text_block (lit "a")) block_empty (text_block (lit ".o")).
Proof.
  split; [apply text_block_wf; [discriminate|reflexivity]|]. split; [exact (Forall_nil _)|]. split; [apply text_block_wf; [discriminate|reflexivity]|].
  eexists. eexists. split; [vm_compute; reflexivity|]. split.
  - eapply (word_out _ _ _ [] [] _ _ (block_marks (text_block (lit "a"))) 0 1); [vm_compute; reflexivity| |reflexivity|reflexivity].
    apply (IP_suffix fst _ _ [] []). vm_compute. reflexivity.
  - vm_compute. discriminate.
Qed.

Lemma c23_prefix_pattern : sub_wrong (text_block (lit "foox")) (text_block (lit "foo%")) (text_block (lit "%")).
Proof.
  split; [apply text_block_wf; [discriminate|reflexivity]|]. split; [apply text_block_wf; [discriminate|reflexivity]|]. split; [apply text_block_wf; [discriminate|reflexivity]|].
  eexists. eexists. split; [vm_compute; reflexivity|]. split.
  - eapply (word_out _ _ _ (lit "foo") [] _ (Some []) (block_marks (text_block (lit "foox"))) 3 1); [vm_compute; reflexivity| |reflexivity|reflexivity].
    eapply (IP_stem fst _ _ (firstn 3 (block_marks (text_block (lit "foo%")))) _ [] [] _ []); vm_compute; reflexivity.
  - vm_compute. discriminate.
Qed.

Lemma c23_whole_word : sub_wrong (text_block (lit "a.c")) (text_block (lit "%.c")) (text_block (lit "obj")).
Proof.
  split; [apply text_block_wf; [discriminate|reflexivity]|]. split; [apply text_block_wf; [discriminate|reflexivity]|]. split; [apply text_block_wf; [discriminate|reflexivity]|].
  eexists. eexists. split; [vm_compute; reflexivity|]. split.
  - eapply (word_out _ _ _ [] (lit ".c") _ None (block_marks (text_block (lit "a.c"))) 0 1); [vm_compute; reflexivity| |reflexivity|reflexivity].
    eapply (IP_whole fst _ _ [] _ (skipn 1 (block_marks (text_block (lit "%.c")))) (block_marks (text_block (lit "obj"))) []); vm_compute; reflexivity.
  - vm_compute. discriminate.
Qed.

(** A value of two pieces, as $(W)o.c with W = fo. *)
Definition two_pieces : block := Blk [] [ev_constant (at_ 1 5 "fo"); ev_constant (at_ 2 9 "o.c")].
Lemma c23_two_pieces : sub_wrong two_pieces (text_block (lit ".c")) (text_block (lit ".o")).
Proof.
  split; [repeat constructor; cbn; try lia; ascii_tac|]. split; [apply text_block_wf; [discriminate|reflexivity]|]. split; [apply text_block_wf; [discriminate|reflexivity]|].
  eexists. eexists. split; [vm_compute; reflexivity|]. split.
  - eapply (word_out _ _ _ [] (lit ".c") _ _ (block_marks two_pieces) 0 3); [vm_compute; reflexivity| |reflexivity|reflexivity].
    apply (IP_suffix fst _ _ (block_marks (text_block (lit ".c"))) []). vm_compute. reflexivity.
  - vm_compute. discriminate.
Qed.

(** A name of two pieces: $(A$(B):x=y) with B = b and Ab = 1.x. *)
Definition named_world : world :=
  World (Names [] [lit "B"; lit "Ab"])
        (Db [(0%N, VParams (con 1 5 "b") FlRecursive OrFile); (1%N, VParams (con 2 6 "1.x") FlRecursive OrFile)] [] []) c_tab.
Definition named_ref : ast := AVar (loc 3 5) (AConcat (loc 3 7) [con 3 7 "A"; ex_ref "B"; con 3 12 ":x=y"]).
Lemma c23_two_piece_name : exists w' b, eval_fuel no_files 10 named_world named_ref = Ok (w', b) /\ block_into_string b = Ok [] /\
  eval_fuel no_files 10 named_world (ex_ref "Ab:x=y") <> Panic /\
  (forall w'' b', eval_fuel no_files 10 named_world (ex_ref "Ab:x=y") = Ok (w'', b') -> block_into_string b' = Ok (lit "1.y")).
Proof.
  eexists. eexists. split; [vm_compute; reflexivity|]. split; [vm_compute; reflexivity|]. split; [vm_compute; discriminate|].
  intros w'' b' E. vm_compute in E. inversion E; subst. vm_compute. reflexivity.
Qed.

(** The documented result where the key's tail occurs only at the end of words. *)
Lemma subref_as_documented : forall sens value key repl, wf_block value -> words_whole (List.map cref_marks (b_content value)) -> wf_block key -> wf_block repl ->
  (forall c rest o, unquote fst percent [] (block_marks key) = (o, Stopped c rest) ->
     exists ro rc rrest, unquote fst percent [] (block_marks repl) = (ro, Stopped rc rrest)) ->
  (forall pk qk pr qr, pattern fst (block_marks key) (block_marks repl) pk qk pr qr -> qk <> [] /\
     forall w, In w (split_at fst blank [] (block_marks value)) ->
     forall a p z q, w = a ++ p ++ z ++ q -> List.map fst a = pk -> List.map fst z = qk -> q = []) ->
  exists b, do_subref sens value key repl = Ok b /\
    intended_out fst (made 32%N) (block_marks key) (block_marks repl) (block_marks value) (block_marks b).
Proof.
  intros sens value key repl Wv Lv Wk Wr HS HW. destruct (do_subref_ok sens value key repl Wv Lv Wk Wr) as (b & E & _ & S).
  exists b. split; [exact E|]. apply substituted_intended; auto.
  - intros pk qk pr qr w P I. destruct (HW _ _ _ _ P) as (_ & H). apply H. exact I.
  - intros pk qk pr qr P. apply (HW _ _ _ _ P).
Qed.
Lemma subref_exact : forall sens value key repl, wf_block value -> wf_block key -> wf_block repl ->
  exists b, do_subref sens value key repl = Ok b /\
    cut_substituted fst (made 32%N) (block_marks key) (block_marks repl) (List.map cref_marks (b_content value)) (block_marks b).
Proof.
  intros sens value key repl Wv Wk Wr. destruct (do_subref_all sens value key repl Wv Wk Wr) as (b & E & _ & S). eauto.
Qed.
Lemma cut_whole_block : forall space key repl value out, words_whole (List.map cref_marks (b_content value)) ->
  cut_substituted fst space key repl (List.map cref_marks (b_content value)) out -> substituted fst space key repl (block_marks value) out.
Proof. intros. apply cut_whole; assumption. Qed.
Lemma ex_two_cut : wf_block two_pieces /\
  (exists dir file ending, List.map cref_marks (b_content two_pieces) = [dir; file ++ ending] /\ dir <> [] /\ file <> [] /\
     Forall (fun m => blank (fst m) = false) (dir ++ file ++ ending) /\ chars ending = lit ".c" /\
     forall a b, chars (dir ++ file ++ ending) = a ++ chars ending ++ b -> b = []) /\
  unquote fst percent [] (block_marks (text_block (lit ".c"))) = (block_marks (text_block (lit ".c")), Ended []).
Proof.
  split; [repeat constructor; cbn; try lia; ascii_tac|]. split; [|vm_compute; reflexivity].
  eexists. exists (firstn 1 (block_marks (Blk [] [ev_constant (at_ 2 9 "o.c")]))), (skipn 1 (block_marks (Blk [] [ev_constant (at_ 2 9 "o.c")]))).
  split; [reflexivity|]. split; [discriminate|]. split; [discriminate|]. split; [repeat constructor|]. split; [reflexivity|].
  intros a b E. vm_compute in E. do 4 (destruct a as [|? a]; [discriminate E || (injection E; intros; subst; reflexivity)|injection E as _ E]).
  destruct a as [|? a]; [discriminate E|]. injection E as _ E. destruct a; discriminate E.
Qed.

Lemma ex_two_whole : words_whole (List.map cref_marks (b_content (Blk [] (b_content (text_block (lit "a.c ")) ++ b_content (text_block (lit "b.c")))))).
Proof.
  intros before after u x y v E E1 E2. destruct before as [|p [|q [|? before]]].
  - destruct u; discriminate.
  - injection E as <- <-. left. apply (f_equal (fun l => last l x)) in E1. rewrite last_last in E1. rewrite <- E1. reflexivity.
  - injection E as <- <- <-. discriminate.
  - discriminate.
Qed.
