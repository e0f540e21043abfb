(** Lists of sources and objects: `OBJS = $(SRCS:.c=.o)`. *)
From Coq Require Import String.
From Verif Require Import Base LocModel EvdModel AstModel EngineModel EvdSpec DbSpec ParseModel ParseSpec EvalSpec AstParseSpec EngineSpec MakeSpec
  EvdProofs2 SubstProofs EvalProofs2 ParseProofs EvalProofs3 EvalProofs4 WriteSubst MakeProofs5 MakeRun WriteSpec WriteProofs WriteProofs2 WriteProofs3 WriteProofs5 WriteProofs6 WriteProofs7 ObjectSpec.
Local Open Scope nat_scope.

Definition same : char -> char := fun c => c.

Lemma split_word : forall x w r, Forall word_char x -> split_at same blank w (x ++ r) = split_at same blank (w ++ x) r.
Proof.
  induction x as [|c x IH]; intros w r F; [rewrite app_nil_r; reflexivity|]. inversion F as [|? ? W F']; subst. cbn [app split_at]. unfold same at 1.
  replace (blank c) with false; [rewrite IH, <- app_assoc by exact F'; reflexivity|]. symmetry. apply word_facts in W. tauto.
Qed.
Lemma split_words : forall ws, Forall file_name ws -> split_at same blank [] (join c_space ws) = ws.
Proof.
  intros ws F. induction F as [|x ws N F IH]; [reflexivity|]. destruct x as [|c x]; [destruct N as (N & _); contradiction|]. destruct ws as [|y ws].
  - cbn [join]. rewrite <- (app_nil_r (c :: x)) at 1. rewrite split_word by apply N. reflexivity.
  - change (join c_space ((c :: x) :: y :: ws)) with ((c :: x) ++ c_space :: join c_space (y :: ws)). rewrite split_word by apply N.
    cbn [split_at app]. change (blank (same c_space)) with true. cbn match. cbn [word_and]. rewrite IH. reflexivity.
Qed.
Lemma file_words : forall ws, Forall file_name ws -> words (join c_space ws) = ws.
Proof.
  intros ws F. unfold words. induction F as [|x ws N F IH]; [reflexivity|].
  destruct x as [|c x]; [destruct N as (N & _); contradiction|]. destruct ws as [|y ws].
  - cbn [join]. rewrite <- (app_nil_r (c :: x)) at 1. rewrite split_plain by apply N. reflexivity.
  - change (join c_space ((c :: x) :: y :: ws)) with ((c :: x) ++ c_space :: join c_space (y :: ws)). rewrite split_plain by apply N.
    cbn [split_at app]. change (is_whitespace c_space) with true. cbn match. cbn [word_and]. rewrite IH. reflexivity.
Qed.
Lemma unquote_word : forall x, Forall word_char x -> unquote same percent [] x = (x, Ended []).
Proof.
  induction x as [|c x IH]; intros F; [reflexivity|]. inversion F as [|? ? W F']; subst. cbn [unquote]. change (same c) with c.
  assert (backslash c = false) as -> by (apply N.eqb_neq; unfold word_char in W; lia).
  assert (percent c = false) as -> by (apply N.eqb_neq; unfold word_char in W; lia). rewrite IH by exact F'. reflexivity.
Qed.
Lemma words_substituted : forall from to s ws outs, Forall word_char from -> split_at same blank [] s = ws -> (ws = [] -> s = []) ->
  Forall2 (replaced same [] from [] to) ws outs -> substituted same c_space from to s (join c_space outs).
Proof.
  intros from to s ws outs Wf Sw Ne R. exists [], from, [], to, outs. split.
  - pose proof (P_suffix same from to from [] (unquote_word _ Wf)) as P. rewrite app_nil_r, map_id in P. exact P.
  - split; [|reflexivity]. destruct s as [|c s]; [cbn in Sw; subst ws; exact R|]. unfold subst_words. rewrite Sw. destruct ws; [discriminate (Ne eq_refl)|exact R].
Qed.

Lemma files_dep : forall ws, Forall file_name ws -> Forall dep_char (join c_space ws).
Proof.
  intros ws F. induction F as [|x ws [_ W] F IH]; [constructor|]. assert (X : Forall dep_char x) by (eapply Forall_impl; [|exact W]; intros c Q; left; exact Q).
  destruct ws as [|y ws]; [exact X|]. change (join c_space (x :: y :: ws)) with (x ++ c_space :: join c_space (y :: ws)). apply Forall_app. split; [exact X|]. constructor; [right; reflexivity|exact IH].
Qed.
Lemma files_ordinary : forall ws, Forall file_name ws -> Forall ordinary (join c_space ws) /\ not_blank_first (join c_space ws).
Proof.
  intros ws F. split.
  - eapply Forall_impl; [|apply files_dep; exact F]. intros c [W| ->].
    + split; [unfold word_char in W; lia|]. cbn. unfold word_char in W. lia.
    + split; [unfold c_space; lia|]. cbn. unfold c_space. lia.
  - destruct F as [|x ws [N W] F]; [exact Logic.I|]. destruct x as [|c x]; [contradiction|]. inversion W as [|? ? Wc _]; subst.
    destruct ws; cbn; intros ->; unfold word_char, c_space in Wc; lia.
Qed.
Lemma files_value : forall ws, Forall file_name ws -> plain_value (join c_space ws).
Proof. intros ws F. apply files_ordinary in F as [A B]. apply simple_value; assumption. Qed.
Lemma files_safe : forall ws, Forall file_name ws -> safe_deps (join c_space ws).
Proof.
  intros ws F c I Q. pose proof (files_dep ws F) as D. rewrite Forall_forall in D. destruct (D c I) as [W| ->]; [|cbn in Q; unfold c_space in Q; lia].
  cbn in Q. unfold word_char in W. lia.
Qed.

Lemma does_app : forall fs s ss s1 ss' s2, does_all fs s ss s1 -> does_all fs s1 ss' s2 -> does_all fs s (ss ++ ss') s2.
Proof. intros fs s ss s1 ss' s2 D. revert s2 ss'. induction D; intros; cbn [app]; [assumption|]. econstructor; eauto. Qed.
Lemma every_app : forall P a b, every P a -> every P b -> every P (a ++ b).
Proof. unfold every. induction a as [|c a IH]; cbn; intros b A B; [exact B|]. split; [apply A|]. apply IH; [apply A|exact B]. Qed.
Lemma show_all_app : forall a b, show_all (a ++ b) = show_all a ++ show_all b.
Proof. intros. unfold show_all. rewrite map_app, concat_app. reflexivity. Qed.
Lemma split_space : forall s ws, Forall file_name ws -> ws <> [] ->
  split_at same blank [] (s ++ c_space :: join c_space ws) = split_at same blank [] s ++ ws.
Proof.
  intros s ws F N.
  assert (G : forall s w, split_at same blank w (s ++ c_space :: join c_space ws) = split_at same blank w s ++ ws).
  { clear s. induction s as [|c s IH]; intros w; cbn [app split_at].
    - change (blank (same c_space)) with true. cbn match. rewrite split_words by exact F. destruct w; reflexivity.
    - destruct (blank (same c)); [|apply IH]. rewrite IH. destruct w; reflexivity. }
  apply G.
Qed.
Lemma file_line : forall l, l <> [] -> Forall file_name l -> line_part (join c_space l).
Proof.
  intros l N F. destruct (files_ordinary l F) as (O & B). split; [exact O|].
  assert (Ne : join c_space l <> []).
  { destruct F as [|x l [Nx _] F]; [contradiction|]. destruct x; [contradiction|]. destruct l; discriminate. }
  split; [exact Ne|]. split; [exact B|]. clear O B Ne.
  assert (G : exists p c, join c_space l = p ++ [c] /\ word_char c).
  { induction F as [|x l [Nx Wx] F IH]; [contradiction|]. destruct l as [|y l].
    - cbn [join]. destruct (exists_last Nx) as (p & c & ->). apply Forall_app in Wx as [_ Wx]. exists p, c. split; [reflexivity|exact (Forall_inv Wx)].
    - destruct IH as (p & c & E & W); [discriminate|]. change (join c_space (x :: y :: l)) with (x ++ c_space :: join c_space (y :: l)). rewrite E.
      exists (x ++ c_space :: p), c. split; [rewrite <- app_assoc; reflexivity|exact W]. }
  destruct G as (p & c & -> & W). rewrite rev_app_distr. cbn. intros ->. unfold word_char, c_space in W. lia.
Qed.

(** Names in pieces: no name goes on from one piece to the next. *)
Definition placed_pieces (ps : list str) : list (list (N * location)) := List.map (List.map made) ps.
Definition whole_names (ps : list str) : Prop := words_whole (placed_pieces ps).
Lemma whole_one : forall s, whole_names [s].
Proof. intros s. apply words_whole_short. cbn. lia. Qed.
Lemma whole_more : forall ps s, whole_names ps -> whole_names (ps ++ [[c_space]; s]).
Proof.
  unfold whole_names, placed_pieces. intros ps s H before after u x y v E Eb Ea. rewrite map_app in E. cbn [List.map] in E.
  revert E. generalize (List.map made s). generalize dependent (List.map (List.map made) ps). clear ps s. intros ps H t E.
  assert (D : (exists after', ps = before ++ after' /\ after = after' ++ [[made c_space]; t]) \/ (after = [t] /\ before = ps ++ [[made c_space]]) \/ after = []).
  { apply app_eq_app in E as (l & [[-> E]|[-> E]]); [left; exists l; auto|].
    destruct l as [|a l]; [left; exists []; cbn in E; rewrite !app_nil_r; split; [reflexivity|now symmetry]|]. cbn in E. injection E as <- E.
    destruct l as [|b l]; [right; left; cbn in E; auto|]. cbn in E. injection E as <- E. destruct l; [|discriminate E]. cbn in E. right; right. congruence. }
  destruct D as [(a' & Q & ->)|[(-> & ->)| -> ]]; [|rewrite concat_app in Eb; cbn in Eb; apply app_inj_tail in Eb as [_ <-]; left; reflexivity|discriminate Ea].
  rewrite concat_app in Ea. destruct (concat a') as [|z r] eqn:Ec; cbn in Ea; injection Ea as <- Ea; [right; reflexivity|].
  exact (H before a' u x z r Q Eb Ec).
Qed.
Lemma whole_cut_chars : forall k r ps out, whole_names ps -> substituted same c_space k r (concat ps) out -> cut_substituted same c_space k r ps out.
Proof.
  intros k r ps out W S. assert (Cm : forall s, chars (List.map made s) = s) by (intros s; unfold chars; rewrite map_map; apply map_id).
  assert (Sp : same_pieces (placed_pieces ps) ps).
  { unfold placed_pieces. clear. induction ps as [|p ps IH]; [apply same_nil|]. apply same_cons; [unfold chars; rewrite map_map; apply map_id|exact IH]. }
  destruct (cut_substituted_total same c_space k r ps) as (out' & C). rewrite <- (Cm k), <- (Cm r) in C, S.
  destruct (cut_chars _ _ _ _ _ Sp C) as (o & Co & <-). apply cut_whole in Co; [|exact W]. rewrite <- (same_concat _ _ Sp) in S.
  destruct (subst_chars _ _ _ _ S) as (o' & So & <-). assert (o = o') as <- by (eapply substituted_det; eauto). rewrite !Cm in C. exact C.
Qed.

Lemma listed_does : forall fs x ws t, name x -> listed x ws t ->
  exists ss E V ps, show_all ss = t /\ every well_formed ss /\ does_all fs w_start ss (WState E None (fun _ => None) false) /\ E x = Some V /\
    (forall E, val_in E V ps) /\ whole_names ps /\ split_at same blank [] (concat ps) = ws /\ (ws = [] -> concat ps = []).
Proof.
  intros fs x ws t N L. induction L as [ws F|down l ls F D|ws t ws' L IH Ne F].
  - exists [SAssign x OSet [Txt (join c_space ws)]]. eexists. eexists. exists [join c_space ws]. split; [unfold show_all; cbn; rewrite !app_nil_r; reflexivity|].
    split; [split; [split; [exact N|apply value_txt, files_value, F]|exact Logic.I]|]. split; [econstructor; [apply D_assign, G_set|]; constructor|].
    split; [apply set_same|]. split; [intros E; constructor; apply txt_in|]. split; [apply whole_one|]. cbn [concat]. rewrite app_nil_r. split; [apply split_words, F|]. intros ->. reflexivity.
  - set (es := List.map (fun l => [Txt (join c_space l)]) ls). exists [SLong x OSet down [Txt (join c_space l)] es]. eexists. eexists.
    exists (join c_space l :: concat (List.map (fun l => [[c_space]; join c_space l]) ls)).
    assert (F' : Forall line_part (List.map (join c_space) (l :: ls))).
    { apply Forall_map. eapply Forall_impl; [|exact F]. intros a [A1 A2]. apply file_line; auto. }
    assert (W : Forall long_line (List.map (fun l => [Txt l]) (List.map (join c_space) (l :: ls)))).
    { apply Forall_map. eapply Forall_impl; [|exact F']. intros a (O & R). split; [apply made_txt; exact O|]. rewrite show_txt. exact R. }
    split; [|split; [|split; [|split; [apply set_same|split; [|split; [|split]]]]]].
    + unfold show_all. cbn [List.map concat show_stmt show_op]. rewrite show_txt, app_nil_r. unfold es. rewrite map_map. assert (Q : List.map (fun x => continues ++ show [Txt (join c_space x)]) ls = List.map (fun l => continues ++ join c_space l) ls) by (apply map_ext; intros a; rewrite show_txt; reflexivity).
      cbn [show_op] in *. rewrite Q. destruct down; reflexivity.
    + split; [|exact Logic.I]. split; [exact N|]. split; [|destruct D as [D|D]; [now left|right; unfold es; destruct ls; [contradiction|discriminate]]].
      unfold es. cbn [List.map] in W. rewrite map_map in W. exact W.
    + econstructor; [apply D_long, GL_later; cbn; tauto|]. constructor.
    + intros E. unfold lines_val, es.
      assert (G : forall ls v ps, val_in E v ps -> val_in E (fold_left (fun v e => Plus v true (Later e)) (List.map (fun l => [Txt (join c_space l)]) ls) v) (ps ++ concat (List.map (fun l => [[c_space]; join c_space l]) ls))).
      { clear. induction ls as [|l ls IH]; intros v ps H; cbn [List.map fold_left concat]; [rewrite app_nil_r; exact H|].
        rewrite app_assoc. apply IH. apply (WI_plus E v true); [exact H|]. constructor. apply txt_in. }
      apply (G ls (Later [Txt (join c_space l)]) [join c_space l]). constructor. apply txt_in.
    + assert (G : forall ls ps, whole_names ps -> whole_names (ps ++ concat (List.map (fun l => [[c_space]; join c_space l]) ls))).
      { clear. induction ls as [|l ls IH]; intros ps H; cbn [List.map concat]; [rewrite app_nil_r; exact H|]. rewrite app_assoc. apply IH, whole_more, H. }
      apply (G ls [join c_space l]), whole_one.
    + cbn [concat]. assert (Q : concat (concat (List.map (fun l => [[c_space]; join c_space l]) ls)) = concat (List.map (cons c_space) (List.map (join c_space) ls))).
      { clear. induction ls as [|l ls IH]; [reflexivity|]. cbn [List.map concat app]. rewrite IH. reflexivity. }
      rewrite Q. clear Q.
      inversion F as [|? ? [N1 F1] F2]; subst. rewrite <- (split_words l) at 2 by exact F1. generalize (join c_space l). clear - F2.
      induction F2 as [|l' ls [N1 F1] F2 IH]; intros s; cbn [List.map concat]; [rewrite !app_nil_r; reflexivity|].
      replace (s ++ (c_space :: join c_space l') ++ concat (List.map (cons c_space) (List.map (join c_space) ls))) with
        ((s ++ c_space :: join c_space l') ++ concat (List.map (cons c_space) (List.map (join c_space) ls))) by (rewrite <- app_assoc; reflexivity).
      rewrite IH, split_space by assumption. rewrite app_assoc. reflexivity.
    + inversion F as [|? ? [N1 F1] F2]; subst. destruct l; [contradiction|discriminate].
  - destruct IH as (ss & E & V & ps & Et & W & Do & Ev & Sy & Wh & Sp & _). exists (ss ++ [SAssign x OMore [Txt (join c_space ws')]]). eexists. eexists.
    exists (ps ++ [[c_space]; join c_space ws']). split; [rewrite show_all_app, Et; unfold show_all; cbn; rewrite !app_nil_r; reflexivity|].
    split; [apply every_app; [exact W|]; split; [split; [exact N|apply value_txt, files_value, F]|exact Logic.I]|].
    split; [eapply does_app; [exact Do|]; econstructor; [apply D_assign, G_more; exact Ev|]; constructor|]. split; [apply set_same|].
    split; [|split; [apply whole_more, Wh|split]].
    + intros E'. apply (WI_plus E' V true _ ps); [apply Sy|]. constructor. apply txt_in.
    + rewrite concat_app. cbn [concat app]. rewrite app_nil_r, split_space, Sp by assumption. reflexivity.
    + intros Q. apply app_eq_nil in Q as [_ Q]. contradiction.
Qed.

Section Objects.
Variables (fs : str -> file) (srcs objs prog from to z v : str).
Hypotheses (Af : ascii_files fs) (Ns : name srcs) (No : name objs) (Np : name prog) (Nz : name z) (D1 : srcs <> objs) (D2 : z <> srcs) (D3 : z <> objs)
  (Wf : Forall word_char from) (Wt : Forall word_char to) (Vv : plain_value v).
Lemma objects_run : forall ws list_text outs, listed srcs ws list_text -> Forall file_name outs -> Forall2 (replaced same [] from [] to) ws outs ->
  exists w r, reads_to fs (list_text ++
      objs ++ lit " = $(" ++ srcs ++ lit ":" ++ from ++ lit "=" ++ to ++ lit ")" ++ nl ++
      prog ++ lit ": $(" ++ objs ++ lit ")" ++ nl ++
      z ++ lit " = " ++ v ++ nl) (Ok (w, MOk)) /\
    has_value fs w objs (join c_space outs) /\ option_map view (rule_of (w_names w) (w_db w) prog) = Some r /\ List.map block_text (rv_deps r) = outs.
Proof.
  intros ws list_text outs L Fo R.
  destruct (listed_does fs srcs ws list_text Ns L) as (ss & E0 & V0 & ps & Et & W & Do0 & Ev & Sy & Wh & Sp & Sn).
  assert (Wx : forall x, Forall word_char x -> Forall ordinary x).
  { intros x. apply Forall_impl. intros c Wc. unfold word_char in Wc. split; [lia|]. cbn. lia. }
  assert (En : forall x, Forall word_char x -> ending x) by (intros x; apply Forall_impl; auto).
  assert (Vs : value_expr [Sub srcs from to]).
  { apply ordinary_value; [|cbn; discriminate]. constructor; [|constructor]. split; [exact Ns|]. split; [apply En; exact Wf|]. split; [apply En; exact Wt|].
    rewrite !Forall_app. split; [constructor; [split; [vm_compute; split; discriminate|vm_compute; intuition discriminate]|constructor]|]. split; [apply Wx; exact Wf|]. split; [constructor; [split; [vm_compute; split; discriminate|vm_compute; intuition discriminate]|constructor]|apply Wx; exact Wt]. }
  assert (De : deps_expr [Ref objs]).
  { split; [constructor; [exact No|constructor]|]. cbn. intros k r I E. cbn in I. repeat (destruct I as [<-|I]; [discriminate E|]). destruct I. }
  assert (Ss : forall E, E srcs = Some V0 -> E objs = Some (Later [Sub srcs from to]) -> val_says E (Later [Sub srcs from to]) (join c_space outs)).
  { intros E E1 E2. constructor. rewrite <- (app_nil_r (join c_space outs)). eapply SY_sub; [exact E1|apply Sy| |constructor].
    apply whole_cut_chars; [exact Wh|]. eapply words_substituted; eauto. }
  set (rest := [SAssign objs OSet [Sub srcs from to]; SRule [prog] false [Ref objs] []; SAssign z OSet [Txt v]]).
  eassert (Do1 : does_all fs (WState E0 None (fun _ => None) false) rest _).
  { econstructor; [apply D_assign, G_set|].
    econstructor; [apply (D_rule fs _ [prog] false [Ref objs] [] (join c_space outs)); [|apply files_safe; exact Fo]|].
    - rewrite <- (app_nil_r (join c_space outs)). eapply SY_some; [apply set_same|apply Ss|constructor]; cbn; [rewrite set_other by congruence; exact Ev|]; apply set_same.
    - econstructor; [apply D_assign, G_set|]. constructor. }
  assert (Wr : every well_formed rest).
  { exact (conj (conj No Vs) (conj (conj (one_not_nil prog) (conj (Forall_cons _ Np (Forall_nil _)) (conj De (Forall_nil _)))) (conj (conj Nz (value_txt _ Vv)) Logic.I))). }
  destruct (plainly _ _ _ (does_app _ _ _ _ _ _ Do0 Do1) Af (every_app _ _ _ W Wr)) as (w & Rd & U & V & Ru).
  rewrite show_all_app, Et in Rd. unfold rest, show_all in Rd. cbn [List.map concat show_stmt join] in Rd. rewrite !show_txt, !app_nil_r in Rd. unfold show in Rd. cbn [List.map concat show_part] in Rd.
  rewrite !app_nil_r, <- !app_assoc in Rd. cbn [app] in Rd. cbn in Ru. unfold combined in Ru. cbn in Ru.
  pose proof (Ru prog) as Rt. rewrite set_same in Rt. destruct (option_map view (rule_of (w_names w) (w_db w) prog)) as [r|] eqn:Er; [|destruct Rt].
  exists w, r. split; [exact Rd|]. split; [|split; [exact Er|]].
  - eapply (V objs); [cbn; rewrite set_other by congruence; apply set_same|]. apply Ss; cbn; rewrite set_other by congruence; [rewrite set_other by congruence; exact Ev|apply set_same].
  - destruct Rt as (Rt & _). cbn in Rt. rewrite Rt. apply file_words. exact Fo.
Qed.

Lemma suffix_replaced : forall n, ends_once from n -> replaced same [] from [] to (n ++ from) (n ++ to).
Proof.
  intros n O. apply (R_match same [] from [] to (n ++ from) n). exists [], from. split; [reflexivity|]. split; [reflexivity|]. split; [apply map_id|].
  intros p q E. replace (List.map same (n ++ from)) with (n ++ from) in E by (symmetry; apply map_id). pose proof (O _ _ E) as ->.
  rewrite app_nil_r in E. apply app_inv_tail in E as ->. auto.
Qed.
Lemma suffix_kept : forall a b, b <> [] -> replaced same [] from [] to (a ++ from ++ b) (a ++ from ++ b).
Proof.
  intros a b N. apply R_keep. intros stem (h & tl & E & Eh & Et & M). destruct h; [|discriminate Eh]. cbn [app] in E. replace (List.map same tl) with tl in Et by (symmetry; apply map_id). subst tl.
  specialize (M a b). replace (List.map same (stem ++ from)) with (stem ++ from) in M by (symmetry; apply map_id). rewrite <- E in M. specialize (M eq_refl).
  apply (f_equal (@List.length char)) in E. rewrite !app_length in E. destruct b; [contradiction|]. cbn in E. lia.
Qed.
Lemma file_append : forall n, file_name n -> forall x, Forall word_char x -> file_name (n ++ x).
Proof. intros n [N W] x Wx. split; [destruct n; [contradiction|discriminate]|apply Forall_app; auto]. Qed.

Lemma listed_files : forall x ws t, listed x ws t -> Forall file_name ws.
Proof.
  intros x ws t L. induction L as [ws F|down l ls F D|ws t ws' L IH Ne F]; [exact F| |apply Forall_app; auto].
  generalize (l :: ls) F. clear. intros ls F. induction F as [|l ls [_ Fl] F IH]; [constructor|]. cbn. apply Forall_app. auto.
Qed.
Lemma objects_built : forall stems list_text, Forall file_name stems -> Forall (ends_once from) stems -> listed srcs (List.map (fun n => n ++ from) stems) list_text ->
  exists w r, reads_to fs (list_text ++
      objs ++ lit " = $(" ++ srcs ++ lit ":" ++ from ++ lit "=" ++ to ++ lit ")" ++ nl ++
      prog ++ lit ": $(" ++ objs ++ lit ")" ++ nl ++
      z ++ lit " = " ++ v ++ nl) (Ok (w, MOk)) /\
    has_value fs w objs (join c_space (List.map (fun n => n ++ to) stems)) /\
    option_map view (rule_of (w_names w) (w_db w) prog) = Some r /\ List.map block_text (rv_deps r) = List.map (fun n => n ++ to) stems.
Proof.
  intros stems list_text F O L. eapply objects_run; [exact L| |].
  - apply Forall_map. eapply Forall_impl; [|exact F]. intros n Fn. apply file_append; auto.
  - clear F L. induction O; cbn [List.map]; constructor; auto. apply suffix_replaced. assumption.
Qed.
Lemma objects_kept : forall sources list_text, listed srcs sources list_text -> Forall (fun s => exists a b, s = a ++ from ++ b /\ b <> []) sources ->
  exists w r, reads_to fs (list_text ++
      objs ++ lit " = $(" ++ srcs ++ lit ":" ++ from ++ lit "=" ++ to ++ lit ")" ++ nl ++
      prog ++ lit ": $(" ++ objs ++ lit ")" ++ nl ++
      z ++ lit " = " ++ v ++ nl) (Ok (w, MOk)) /\
    has_value fs w objs (join c_space sources) /\
    option_map view (rule_of (w_names w) (w_db w) prog) = Some r /\ List.map block_text (rv_deps r) = sources.
Proof.
  intros sources list_text L O. eapply objects_run; [exact L|eapply listed_files; exact L|]. clear L. induction O as [|s l (a & b & -> & N) O IH]; constructor; auto. apply suffix_kept. exact N.
Qed.
End Objects.
