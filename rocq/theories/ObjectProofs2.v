(** Lists of sources in a directory named by a variable: `SRCS = $(dir)/a.c $(dir)/b.c`. *)
From Coq Require Import String.
From Verif Require Import Base LocModel EvdModel AstModel EngineModel EvdSpec DbSpec ParseModel ParseSpec EvalSpec AstParseSpec EngineSpec MakeSpec
  EvdProofs2 SubstProofs EvalProofs2 ParseProofs EvalProofs3 EvalProofs4 WriteSubst MakeProofs5 MakeRun WriteSpec WriteProofs WriteProofs2 WriteProofs3 WriteProofs5 WriteProofs6 WriteProofs7 ObjectSpec ObjectProofs.
Local Open Scope nat_scope.

Section Directory.
Variables (fs : str -> file) (d srcs objs dir from to : str).
Hypotheses (Af : ascii_files fs) (Nd : name d) (Ns : name srcs) (No : name objs) (D1 : d <> srcs) (D2 : d <> objs) (D3 : srcs <> objs)
  (Fd : file_name dir) (Wf : Forall word_char from) (Wt : Forall word_char to).

Fixpoint dir_expr (ns : list str) : wexpr :=
  match ns with
  | [] => []
  | [n] => [Ref d; Txt (n ++ from)]
  | n :: l => Ref d :: Txt (n ++ from ++ [c_space]) :: dir_expr l
  end.
Fixpoint dir_pieces (ns : list str) : list str :=
  match ns with
  | [] => []
  | [n] => [dir; n ++ from]
  | n :: l => dir :: (n ++ from ++ [c_space]) :: dir_pieces l
  end.
Lemma show_part_one : forall p, show [p] = show_part p.
Proof. intros p. unfold show. cbn. apply app_nil_r. Qed.
Lemma show_cons : forall p e, show (p :: e) = show_part p ++ show e.
Proof. reflexivity. Qed.
Lemma dir_show : forall ns, show (dir_expr ns) = join c_space (List.map (fun n => lit "$(" ++ d ++ lit ")" ++ n ++ from) ns).
Proof.
  induction ns as [|n l IH]; [reflexivity|]. destruct l as [|n' l].
  - cbn [dir_expr List.map join]. rewrite show_cons, show_part_one. cbn [show_part]. rewrite <- !app_assoc. reflexivity.
  - change (dir_expr (n :: n' :: l)) with (Ref d :: Txt (n ++ from ++ [c_space]) :: dir_expr (n' :: l)). rewrite !show_cons, IH. cbn [show_part].
    cbn [List.map]. match goal with |- context [join c_space (?x :: ?y :: ?r)] => change (join c_space (x :: y :: r)) with (x ++ c_space :: join c_space (y :: r)) end.
    rewrite <- !app_assoc. reflexivity.
Qed.
Lemma dir_concat : forall ns, concat (dir_pieces ns) = join c_space (List.map (fun n => dir ++ n ++ from) ns).
Proof.
  induction ns as [|n l IH]; [reflexivity|]. destruct l as [|n' l].
  - cbn [dir_pieces List.map join concat]. rewrite app_nil_r. reflexivity.
  - change (dir_pieces (n :: n' :: l)) with (dir :: (n ++ from ++ [c_space]) :: dir_pieces (n' :: l)). cbn [concat]. rewrite IH.
    cbn [List.map]. match goal with |- context [join c_space (?x :: ?y :: ?r)] => change (join c_space (x :: y :: r)) with (x ++ c_space :: join c_space (y :: r)) end.
    rewrite <- !app_assoc. reflexivity.
Qed.
Lemma dir_in : forall E ns, E d = Some (Later [Txt dir]) -> says_in E (dir_expr ns) (dir_pieces ns).
Proof.
  intros E ns Ed. assert (R : says E [Ref d] dir).
  { rewrite <- (app_nil_r dir). eapply SY_some; [exact Ed|constructor; apply says_txt|constructor]. }
  induction ns as [|n l IH]; [constructor|]. destruct l as [|n' l].
  - apply SI_part; [reflexivity|exact R|]. apply SI_txt; [reflexivity|constructor].
  - apply SI_part; [reflexivity|exact R|]. apply SI_txt; [|exact IH]. destruct l; reflexivity.
Qed.

Notation tsame := (tch same).
Definition dir_word (n : str) : list (bool * char) := piece_marks dir ++ piece_marks (n ++ from).
Lemma word_not_blank : forall c, word_char c -> blank c = false.
Proof. intros c W. apply word_facts in W. tauto. Qed.
Lemma split_marks : forall x acc r, Forall word_char (List.map snd x) -> split_at tsame blank acc (x ++ r) = split_at tsame blank (acc ++ x) r.
Proof.
  induction x as [|m x IH]; intros acc r F; [rewrite app_nil_r; reflexivity|]. cbn [List.map] in F. inversion F as [|? ? W F']; subst. cbn [app split_at].
  change (tsame m) with (snd m). rewrite (word_not_blank _ W), IH, <- app_assoc by exact F'. reflexivity.
Qed.
Lemma marks_chars : forall p : str, List.map snd (piece_marks p) = p.
Proof. intros [|x p]; [reflexivity|]. cbn. rewrite map_map, map_id. reflexivity. Qed.
Lemma dir_word_chars : forall n, List.map snd (dir_word n) = dir ++ n ++ from.
Proof. intros n. unfold dir_word. rewrite map_app, !marks_chars. reflexivity. Qed.
Lemma dir_split : forall ns, Forall file_name ns -> split_at tsame blank [] (in_pieces (dir_pieces ns)) = List.map dir_word ns.
Proof.
  assert (W : forall n, file_name n -> Forall word_char (List.map snd (dir_word n))).
  { intros n [_ Wn]. rewrite dir_word_chars, !Forall_app. split; [apply Fd|auto]. }
  assert (E : forall n, exists m t, dir_word n = m :: t).
  { intros n. unfold dir_word. destruct dir as [|c r] eqn:Q; [destruct Fd as [X _]; contradiction|]. eexists _, _. reflexivity. }
  intros ns F. induction F as [|n l Fn F IH]; [reflexivity|]. destruct l as [|n' l].
  - change (in_pieces (dir_pieces [n])) with (piece_marks dir ++ piece_marks (n ++ from) ++ []). rewrite app_nil_r. fold (dir_word n).
    rewrite <- (app_nil_r (dir_word n)), split_marks by (apply W, Fn). cbn [app split_at List.map]. destruct (E n) as (m & t & ->). reflexivity.
  - change (in_pieces (dir_pieces (n :: n' :: l))) with (piece_marks dir ++ piece_marks (n ++ from ++ [c_space]) ++ in_pieces (dir_pieces (n' :: l))).
    replace (piece_marks (n ++ from ++ [c_space])) with (piece_marks (n ++ from) ++ [(false, c_space)]).
    2:{ destruct n as [|c n]; [destruct Fn as [X _]; contradiction|]. cbn. rewrite !map_app, <- app_assoc. reflexivity. }
    rewrite <- app_assoc, app_assoc. fold (dir_word n). rewrite split_marks by (apply W, Fn). cbn [app split_at]. change (blank (tsame (false, c_space))) with true. cbn match.
    rewrite IH. cbn [List.map]. destruct (E n) as (m & t & ->). reflexivity.
Qed.
Lemma before_last_app : forall (a : list (bool * char)) m b, fst m = true -> Forall (fun x => fst x = false) b -> before_last (a ++ m :: b) = Some (List.map snd a).
Proof.
  intros a m b M B. assert (Q : before_last b = None) by (induction B as [|x b X B IH]; [reflexivity|]; cbn; rewrite IH, X; reflexivity).
  induction a as [|x a IH]; cbn [app before_last List.map]; [rewrite Q, M; reflexivity|]. rewrite IH. reflexivity.
Qed.
Lemma dir_kept : forall n, file_name n -> EvalSpec.kept (piece_marks dir ++ piece_marks n) (List.map (pair false) from) = dir.
Proof.
  intros n [Nn _]. destruct Fd as [Ne _]. destruct dir as [|c r]; [contradiction|]. destruct n as [|a n]; [contradiction|]. unfold EvalSpec.kept. cbn [piece_marks app].
  rewrite <- app_assoc. cbn [app]. rewrite before_last_app; [cbn [snd]; rewrite map_map, map_id; reflexivity|reflexivity|].
  apply Forall_app. split; [apply Forall_map; apply Forall_forall; reflexivity|]. destruct from; [constructor|constructor; [reflexivity|constructor]].
Qed.
Lemma dir_word_split : forall n, file_name n -> dir_word n = [] ++ (piece_marks dir ++ piece_marks n) ++ List.map (pair false) from.
Proof. intros n [Nn _]. destruct n as [|a n]; [contradiction|]. unfold dir_word. cbn [app piece_marks]. rewrite map_app, <- app_assoc. reflexivity. Qed.
Lemma dir_replaced : forall n, file_name n -> ends_once from (dir ++ n) -> cut_replaced same [] from [] to (dir_word n) (dir ++ to).
Proof.
  intros n Fn O. rewrite (dir_word_split n Fn). pose proof (dir_kept n Fn) as K.
  assert (Mz : List.map tsame (List.map (pair false) from) = from) by (rewrite map_map; unfold tch; cbn; apply map_id).
  assert (Ms : List.map tsame (piece_marks dir ++ piece_marks n) = dir ++ n) by (unfold tch, same; rewrite map_app, !marks_chars; reflexivity).
  set (stem := piece_marks dir ++ piece_marks n) in *. set (z := List.map (pair false) from) in *.
  rewrite <- K. apply (CR_match same [] from [] to [] stem z); [|reflexivity|exact Mz].
  exists [], z. split; [reflexivity|]. split; [reflexivity|]. split; [exact Mz|]. intros p q Q. rewrite map_app, Ms, Mz in Q.
  pose proof (O _ _ Q) as ->. rewrite app_nil_r in Q. apply app_inv_tail in Q as <-. rewrite <- Ms, map_length. reflexivity.
Qed.
Lemma dir_cut : forall ns, Forall file_name ns -> Forall (fun n => ends_once from (dir ++ n)) ns ->
  cut_substituted same c_space from to (dir_pieces ns) (join c_space (List.map (fun _ => dir ++ to) ns)).
Proof.
  intros ns F O. exists [], from, [], to, (List.map (fun _ => dir ++ to) ns). split; [|split; [|reflexivity]].
  - pose proof (P_suffix same from to from [] (unquote_word _ Wf)) as P. rewrite app_nil_r, map_id in P. exact P.
  - assert (Q : subst_words tsame (in_pieces (dir_pieces ns)) = List.map dir_word ns).
    { pose proof (dir_split ns F) as Q. unfold subst_words. destruct (in_pieces (dir_pieces ns)) as [|m t] eqn:I; [exact Q|]. rewrite Q.
      destruct ns; [discriminate I|reflexivity]. }
    rewrite Q. clear Q. induction F as [|n l Fn F IH]; [constructor|]. inversion O; subst. constructor; [apply dir_replaced; assumption|]. apply IH. assumption.
Qed.

Lemma directory_lost : forall ns, ns <> [] -> Forall file_name ns -> Forall (fun n => ends_once from (dir ++ n)) ns ->
  exists w, reads_to fs (d ++ lit " = " ++ dir ++ nl ++
      srcs ++ lit " = " ++ join c_space (List.map (fun n => lit "$(" ++ d ++ lit ")" ++ n ++ from) ns) ++ nl ++
      objs ++ lit " = $(" ++ srcs ++ lit ":" ++ from ++ lit "=" ++ to ++ lit ")" ++ nl) (Ok (w, MOk)) /\
    has_value fs w srcs (join c_space (List.map (fun n => dir ++ n ++ from) ns)) /\
    has_value fs w objs (join c_space (List.map (fun _ => dir ++ to) ns)).
Proof.
  intros ns Ne F O.
  assert (Wx : forall x, Forall word_char x -> Forall ordinary x).
  { intros x. apply Forall_impl. intros c Wc. unfold word_char in Wc. split; [lia|]. cbn. lia. }
  assert (Sp : ordinary c_space) by (split; [vm_compute; split; discriminate|vm_compute; intuition discriminate]).
  assert (En : forall x, Forall word_char x -> ending x) by (intros x; apply Forall_impl; auto).
  assert (Vs : value_expr [Sub srcs from to]).
  { apply ordinary_value; [|cbn; discriminate]. constructor; [|constructor]. split; [exact Ns|]. split; [apply En; exact Wf|]. split; [apply En; exact Wt|].
    rewrite !Forall_app. split; [constructor; [split; [vm_compute; split; discriminate|vm_compute; intuition discriminate]|constructor]|]. split; [apply Wx; exact Wf|]. split; [constructor; [split; [vm_compute; split; discriminate|vm_compute; intuition discriminate]|constructor]|apply Wx; exact Wt]. }
  assert (Ve : value_expr (dir_expr ns)).
  { apply ordinary_value.
    - clear Ne O. induction F as [|n l [_ Wn] F IH]; [constructor|]. destruct l as [|n' l].
      + constructor; [exact Nd|]. constructor; [|constructor]. apply Forall_app. auto.
      + constructor; [exact Nd|]. constructor; [|exact IH]. change (Forall ordinary (n ++ from ++ [c_space])). rewrite !Forall_app. auto.
    - destruct ns as [|n [|n' l]]; [contradiction|discriminate|discriminate]. }
  assert (Vd : value_expr [Txt dir]).
  { apply value_txt, simple_value; [apply Wx, Fd|]. destruct Fd as [X W]. destruct dir as [|c r]; [contradiction|]. inversion W as [|? ? Wc _]; subst. cbn. intros ->. unfold word_char, c_space in Wc. lia. }
  eassert (Do : does_all fs w_start [SAssign d OSet [Txt dir]; SAssign srcs OSet (dir_expr ns); SAssign objs OSet [Sub srcs from to]] _).
  { econstructor; [apply D_assign, G_set|]. econstructor; [apply D_assign, G_set|]. econstructor; [apply D_assign, G_set|]. constructor. }
  destruct (plainly _ _ _ Do Af (conj (conj Nd Vd) (conj (conj Ns Ve) (conj (conj No Vs) Logic.I)))) as (w & R & _ & V & _).
  exists w. unfold show_all in R. cbn [List.map concat show_stmt show_op] in R. rewrite show_txt, dir_show in R. unfold show at 1 in R. cbn [List.map concat show_part] in R.
  rewrite !app_nil_r, <- !app_assoc in R. split; [exact R|].
  match goal with H : context [has_value fs w _ _] |- _ => idtac end.
  assert (Ed : forall E, E = set (set (set (fun _ => None) d (Later [Txt dir])) srcs (Later (dir_expr ns))) objs (Later [Sub srcs from to]) ->
    E d = Some (Later [Txt dir]) /\ E srcs = Some (Later (dir_expr ns)) /\ E objs = Some (Later [Sub srcs from to])).
  { intros E ->. rewrite set_same, !(set_other _ objs) by congruence. rewrite set_same, (set_other _ srcs) by congruence. rewrite set_same. auto. }
  destruct (Ed _ eq_refl) as (E1 & E2 & E3). split.
  - eapply V; [exact E2|]. rewrite <- dir_concat. apply in_says. constructor. apply dir_in. exact E1.
  - eapply V; [exact E3|]. constructor. rewrite <- (app_nil_r (join c_space _)). eapply SY_sub; [exact E2|constructor; apply dir_in; exact E1| |constructor].
    apply dir_cut; assumption.
Qed.
(** What was asked for is something else. *)
Lemma directory_differs : forall ns, ns <> [] -> Forall file_name ns -> join c_space (List.map (fun n => dir ++ n ++ to) ns) <> join c_space (List.map (fun _ => dir ++ to) ns).
Proof.
  intros ns Ne F Q. apply (f_equal (@List.length char)) in Q. revert Q. apply Nat.neq_sym, Nat.lt_neq. clear - Ne F.
  assert (G : forall l, Forall file_name l -> List.length (join c_space (List.map (fun _ => dir ++ to) l)) <= List.length (join c_space (List.map (fun n => dir ++ n ++ to) l))).
  { intros l H. induction H as [|n l _ H IH]; [reflexivity|]. destruct l as [|n' l]; [cbn; rewrite !app_length; lia|]. cbn [List.map] in *.
    repeat match goal with |- context [join c_space (?x :: ?y :: ?r)] => change (join c_space (x :: y :: r)) with (x ++ c_space :: join c_space (y :: r)) end.
    rewrite !app_length. cbn [List.length]. lia. }
  destruct F as [|n l [Nn _] F]; [contradiction|]. destruct n as [|c n]; [contradiction|]. specialize (G l F). destruct l as [|n' l]; [cbn; rewrite !app_length; cbn; rewrite ?app_length; lia|]. cbn [List.map] in *.
  repeat match goal with |- context [join c_space (?x :: ?y :: ?r)] => change (join c_space (x :: y :: r)) with (x ++ c_space :: join c_space (y :: r)) end.
  rewrite !app_length. cbn [List.length]. lia.
Qed.
End Directory.

Lemma directory_refuted : forall fs d srcs objs dir from to, ascii_files fs -> name d -> name srcs -> name objs -> d <> srcs -> d <> objs -> srcs <> objs ->
  file_name dir -> Forall word_char from -> Forall word_char to ->
  forall names, names <> [] -> Forall file_name names -> Forall (fun n => ends_once from (dir ++ n)) names ->
  exists w, reads_to fs (d ++ lit " = " ++ dir ++ nl ++
      srcs ++ lit " = " ++ join c_space (List.map (fun n => lit "$(" ++ d ++ lit ")" ++ n ++ from) names) ++ nl ++
      objs ++ lit " = $(" ++ srcs ++ lit ":" ++ from ++ lit "=" ++ to ++ lit ")" ++ nl) (Ok (w, MOk)) /\
    has_value fs w srcs (join c_space (List.map (fun n => dir ++ n ++ from) names)) /\
    has_value fs w objs (join c_space (List.map (fun _ => dir ++ to) names)) /\
    join c_space (List.map (fun n => dir ++ n ++ to) names) <> join c_space (List.map (fun _ => dir ++ to) names).
Proof.
  intros fs d srcs objs dir from to Af Nd Ns No D1 D2 D3 Fd Wf Wt names Ne F O.
  destruct (directory_lost fs d srcs objs dir from to Af Nd Ns No D1 D2 D3 Fd Wf Wt names Ne F O) as (w & R & V1 & V2).
  exists w. split; [exact R|]. split; [exact V1|]. split; [exact V2|]. eapply directory_differs; eassumption.
Qed.
