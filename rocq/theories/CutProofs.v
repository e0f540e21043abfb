(** Substitution references in values of several pieces. *)
From Verif Require Import Base LocModel EvdModel NomModel AstModel ParseModel EvdSpec ParseSpec EvalSpec
  EvdProofs EvdProofs2 EvdProofs3 ParseProofs ParseProofs2 ParseProofs3 ParseProofs4 ParseProofs5 SubstProofs EvalProofs EvalProofs2 EngineModel.
Notation length := List.length.

Lemma one_word : forall {A} (ch : A -> char) w, w <> [] -> Forall (fun m => blank (ch m) = false) w -> split_at ch blank [] w = [w].
Proof.
  intros A ch w N F.
  assert (G : forall l acc, Forall (fun m => blank (ch m) = false) l -> split_at ch blank acc l = word_and (acc ++ l) []).
  { intros l acc Fl. revert acc. induction Fl as [|m l E Fl IH]; intros acc; cbn [split_at]; [rewrite app_nil_r; reflexivity|].
    rewrite E, IH, <- app_assoc. reflexivity. }
  rewrite G by exact F. destruct w; [contradiction|reflexivity].
Qed.

Lemma subst_one : forall {A} (ch : A -> char) w, w <> [] -> Forall (fun m => blank (ch m) = false) w -> subst_words ch w = [w].
Proof. intros A ch [|m w] N F; [contradiction|]. unfold subst_words. rewrite one_word by assumption. reflexivity. Qed.

(** A file in a directory whose name is a piece of its own: the file's name is lost. *)
Lemma name_lost : forall sens value key repl dir file ending,
  wf_block value -> wf_block key -> wf_block repl -> List.map cref_marks (b_content value) = [dir; file ++ ending] ->
  dir <> [] -> file <> [] -> Forall (fun m => blank (fst m) = false) (dir ++ file ++ ending) ->
  unquote fst percent [] (block_marks key) = (block_marks key, Ended []) -> chars ending = chars (block_marks key) -> ending <> [] ->
  (forall a b, chars (dir ++ file ++ ending) = a ++ chars ending ++ b -> b = []) ->
  intended_out fst (made 32%N) (block_marks key) (block_marks repl) (block_marks value) (dir ++ file ++ block_marks repl) /\
  exists b, do_subref sens value key repl = Ok b /\ block_marks b = dir ++ block_marks repl.
Proof.
  intros sens value key repl dir file ending Wv Wk Wr Ec Nd Nf Fb U Ee Ne O.
  assert (Mv : block_marks value = dir ++ file ++ ending).
  { unfold block_marks, crefs_marks. rewrite Ec. cbn. rewrite app_nil_r. reflexivity. }
  split.
  - exists [], (chars ending), [], (Some (block_marks repl)), [dir ++ file ++ block_marks repl]. split; [|split; [|reflexivity]].
    + pose proof (IP_suffix fst (block_marks key) (block_marks repl) (block_marks key) [] U) as P. rewrite app_nil_r in P. rewrite Ee. exact P.
    + rewrite Mv, one_word; [|destruct dir; [contradiction|discriminate]|exact Fb]. constructor; [|constructor].
      replace (dir ++ file ++ ending) with ([] ++ (dir ++ file) ++ ending) by (cbn; apply app_assoc_reverse).
      replace (dir ++ file ++ block_marks repl) with ([] ++ (dir ++ file) ++ block_marks repl) by (cbn; apply app_assoc_reverse).
      apply (I_match fst [] (chars ending) [] (Some (block_marks repl))); reflexivity.
  - destruct (do_subref_all sens value key repl Wv Wk Wr) as (b & E & _ & S). exists b. split; [exact E|].
    eapply cut_substituted_det; [exact S|]. rewrite Ec.
    exists [], (chars ending), [], (block_marks repl), [dir ++ block_marks repl]. split; [|split; [|reflexivity]].
    + pose proof (P_suffix fst (block_marks key) (block_marks repl) (block_marks key) [] U) as P. rewrite app_nil_r in P. rewrite Ee. exact P.
    + assert (Ep : in_pieces [dir; file ++ ending] = [] ++ (piece_marks dir ++ piece_marks file) ++ List.map (pair false) ending).
      { unfold in_pieces. cbn [List.map concat app]. rewrite app_nil_r, <- app_assoc. f_equal. destruct file as [|x t]; [contradiction|]. cbn. rewrite map_app. reflexivity. }
      assert (Et : List.map (tch fst) (in_pieces [dir; file ++ ending]) = chars (dir ++ file ++ ending)).
      { rewrite tch_snd, in_pieces_snd. cbn. rewrite app_nil_r. reflexivity. }
      assert (Ls : length (piece_marks dir ++ piece_marks file) = length (dir ++ file)) by (rewrite !app_length, !piece_len; reflexivity).
      rewrite subst_one.
      * rewrite Ep in Et |- *. constructor; [|constructor].
        replace (dir ++ block_marks repl) with ([] ++ kept (piece_marks dir ++ piece_marks file) (List.map (pair false) ending) ++ block_marks repl).
        -- assert (Ez : List.map (tch fst) (List.map (pair false) ending) = chars ending) by (rewrite map_map; reflexivity). apply CR_match; [|reflexivity|exact Ez].
           exists [], (List.map (pair false) ending). ands; auto.
           intros p q Eq. cbn [app] in Et. rewrite Et in Eq. pose proof (O p q Eq) as ->. rewrite Ls. apply (f_equal (@length _)) in Eq. unfold chars in Eq. rewrite app_nil_r, app_assoc, map_length, !app_length, map_length in Eq.
           rewrite app_length. lia.
        -- cbn [app]. f_equal. unfold kept. destruct dir as [|d dir]; [contradiction|]. destruct file as [|x file]; [contradiction|]. cbn [piece_marks app].
           rewrite <- app_assoc. cbn [app]. rewrite before_some.
           ++ rewrite map_map. cbn. rewrite map_id. reflexivity.
           ++ apply Forall_app. split; [apply Forall_map, Forall_forall; reflexivity|]. destruct ending as [|e ending]; cbn; repeat constructor.
      * rewrite Ep. cbn [app]. destruct dir; [contradiction|discriminate].
      * assert (G : Forall (fun c => blank c = false) (List.map (tch fst) (in_pieces [dir; file ++ ending]))) by (rewrite Et; unfold chars; apply Forall_map; exact Fb).
        apply Forall_map in G. exact G.
Qed.
