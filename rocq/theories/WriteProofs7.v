(** Proofs about makefiles written out from statements: consequences. *)
From Coq Require Import String.
From Verif Require Import Base LocModel EvdModel AstModel EngineModel EvdSpec DbSpec ParseModel ParseSpec EvalSpec AstParseSpec EngineSpec MakeSpec
  EvdProofs2 ParseProofs EvalProofs4 MakeProofs5 MakeRun WriteSpec WriteProofs WriteProofs2 WriteProofs3 WriteProofs4 WriteProofs5 WriteProofs6.
Local Open Scope nat_scope.

(** * Consequences *)
Lemma plainly : forall fs ss s, does_all fs w_start ss s -> ascii_files fs -> every well_formed ss ->
  exists w, reads_to fs (show_all ss) (Ok (w, MOk)) /\ shows_state fs s w.
Proof. intros fs ss s Do Af W. eapply expected_reads; eauto. constructor. Qed.
Lemma exactly : forall fs ss s, acts_all fs true w_start ss s -> ascii_files fs -> every well_formed ss ->
  exists w, reads_to fs (show_all ss) (Ok (w, MOk)) /\ shows_state fs s w.
Proof. intros fs ss s Do Af W. eapply written_reads; eauto. constructor. Qed.
Lemma one_not_nil : forall {A} (x : A), [x] <> [].
Proof. discriminate. Qed.
Definition plain_value (a : str) : Prop := Forall line_char a /\ whole a /\ solid_first a.
Lemma show_txt : forall a, show [Txt a] = a.
Proof. intros a. cbn. apply app_nil_r. Qed.
Lemma made_txt : forall P a, Forall P a -> made_of P [Txt a].
Proof. intros P a F. constructor; [exact F|constructor]. Qed.
Lemma value_txt : forall a, plain_value a -> value_expr [Txt a].
Proof. intros a (A & B & C). split; [apply made_txt; exact A|rewrite show_txt; auto]. Qed.
Lemma simple_value : forall a, Forall ordinary a -> not_blank_first a -> plain_value a.
Proof.
  intros a F N. split; [eapply Forall_impl; [exact ordinary_line|exact F]|]. split; [apply ordinary_whole; exact F|].
  apply not_blank_solid; [eapply Forall_impl; [exact ordinary_printable|exact F]|exact N].
Qed.
Lemma says_txt : forall E a, says E [Txt a] a.
Proof. intros E a. rewrite <- (app_nil_r a) at 2. apply SY_txt. constructor. Qed.
Lemma txt_in : forall E a, says_in E [Txt a] [a].
Proof. intros E a. apply SI_txt; [reflexivity|constructor]. Qed.
Lemma set_same : forall {A} (D : str -> option A) x v, set D x v x = Some v.
Proof. intros A D x v. unfold set. destruct (list_eq_dec N.eq_dec x x); [reflexivity|contradiction]. Qed.
Lemma set_other : forall {A} (D : str -> option A) x v y, x <> y -> set D x v y = D y.
Proof. intros A D x v y N. unfold set. destruct (list_eq_dec N.eq_dec x y); [contradiction|reflexivity]. Qed.

Lemma maybe_overwrites : forall fs x a b, ascii_files fs -> name x -> plain_value a -> plain_value b ->
  exists w, reads_to fs (x ++ lit " = " ++ a ++ nl ++ x ++ lit " ?= " ++ b ++ nl) (Ok (w, MOk)) /\ has_value fs w x b.
Proof.
  intros fs x a b Af N A B.
  eassert (Do : does_all fs w_start [SAssign x OSet [Txt a]; SAssign x OMaybe [Txt b]] _).
  { econstructor; [apply D_assign, G_set|]. econstructor; [apply D_assign, G_maybe|]. constructor. }
  destruct (plainly _ _ _ Do Af (conj (conj N (value_txt _ A)) (conj (conj N (value_txt _ B)) Logic.I))) as (w & R & _ & V & _).
  exists w. unfold show_all in R. cbn [List.map concat show_stmt] in R. rewrite !show_txt, app_nil_r, <- !app_assoc in R. split; [exact R|].
  eapply V; [apply set_same|]. constructor. apply says_txt.
Qed.

Lemma words_ignored : forall fs ws, ascii_files fs -> word_line ws ->
  exists w, reads_to fs (join c_space ws ++ nl) (Ok (w, MOk)) /\ (forall x, undefined w x) /\ forall t, rule_of (w_names w) (w_db w) t = None.
Proof.
  intros fs ws Af W. eassert (Do : does_all fs w_start [SWords ws] _).
  { econstructor; [apply D_words|]. constructor. }
  destruct (plainly _ _ _ Do Af (conj W Logic.I)) as (w & R & U & _ & Ru).
  exists w. unfold show_all in R. cbn [List.map concat show_stmt] in R. rewrite app_nil_r in R. split; [exact R|]. split.
  - intros x. apply U. reflexivity.
  - intros t. specialize (Ru t). cbn in Ru. destruct (rule_of _ _ t); [destruct Ru|reflexivity].
Qed.

(** A part of a value on a line of its own. *)
Definition line_part (l : str) : Prop := Forall ordinary l /\ l <> [] /\ not_blank_first l /\ not_blank_first (rev l).
Lemma lines_says : forall E ls v s, val_says E v s ->
  val_says E (fold_left (fun v e => Plus v true (Later e)) (List.map (fun l => [Txt l]) ls) v) (s ++ concat (List.map (cons c_space) ls)).
Proof.
  intros E. induction ls as [|l ls IH]; intros v s H; cbn [List.map fold_left concat]; [rewrite app_nil_r; exact H|].
  replace (s ++ (c_space :: l) ++ concat (List.map (cons c_space) ls)) with ((s ++ [c_space] ++ l) ++ concat (List.map (cons c_space) ls)) by (rewrite <- !app_assoc; reflexivity).
  apply IH. apply (VS_plus E v true); [exact H|]. constructor. apply says_txt.
Qed.
Lemma lines_in : forall E ls v ps, val_in E v ps ->
  exists ps', val_in E (fold_left (fun v e => Plus v true (Later e)) (List.map (fun l => [Txt l]) ls) v) ps' /\ concat ps' = concat ps ++ concat (List.map (cons c_space) ls).
Proof.
  intros E. induction ls as [|l ls IH]; intros v ps H; cbn [List.map fold_left concat]; [exists ps; rewrite app_nil_r; auto|].
  destruct (IH (Plus v true (Later [Txt l])) (ps ++ [[c_space]] ++ [l])) as (ps' & H' & Q).
  - apply (WI_plus E v true); [exact H|]. constructor. apply txt_in.
  - exists ps'. split; [exact H'|]. rewrite Q, concat_app. cbn [concat app]. rewrite app_nil_r, <- !app_assoc. reflexivity.
Qed.
Lemma join_lines : forall ls (l : str), join c_space (l :: ls) = l ++ concat (List.map (cons c_space) ls).
Proof. induction ls as [|l' ls IH]; intros l; [cbn; rewrite app_nil_r; reflexivity|]. change (join c_space (l :: l' :: ls)) with (l ++ c_space :: join c_space (l' :: ls)). rewrite IH. reflexivity. Qed.
Lemma lines_joined : forall fs x o (down : bool) l ls, ascii_files fs -> name x -> Forall line_part (l :: ls) -> (down = true \/ ls <> []) ->
  exists w, reads_to fs (x ++ (if down then removelast (show_op o) ++ continues else show_op o) ++ l ++ concat (List.map (fun l => continues ++ l) ls) ++ nl) (Ok (w, MOk)) /\
    has_value fs w x (join c_space (l :: ls)) /\ (forall y, y <> x -> undefined w y) /\ forall t, rule_of (w_names w) (w_db w) t = None.
Proof.
  intros fs x o down l ls Af N F D. set (es := List.map (fun l => [Txt l]) ls).
  assert (S : exists ps, val_in (w_env w_start) (lines_val [Txt l] es) ps /\ concat ps = join c_space (l :: ls)).
  { rewrite join_lines. destruct (lines_in (w_env w_start) ls (Later [Txt l]) [l]) as (ps & I & Q); [constructor; apply txt_in|].
    exists ps. split; [exact I|]. rewrite Q. cbn [concat]. rewrite app_nil_r. reflexivity. }
  assert (G : exists v, gives_lines (w_env w_start) x o [Txt l] es v /\ forall E, val_says E v (join c_space (l :: ls))).
  { assert (S' : forall E, val_says E (lines_val [Txt l] es) (join c_space (l :: ls))) by (intros E; rewrite join_lines; apply lines_says; constructor; apply says_txt).
    destruct o; try (eexists; split; [apply GL_later; cbn; tauto|exact S']).
    - destruct S as (ps & S & <-). eexists. split; [apply GL_now; exact S|]. intros E. constructor.
    - eexists. split; [apply GL_new; reflexivity|exact S']. }
  destruct G as (v & G & Sv).
  eassert (Do : does_all fs w_start [SLong x o down [Txt l] es] _) by (econstructor; [apply D_long; exact G|constructor]).
  assert (W : every well_formed [SLong x o down [Txt l] es]).
  { split; [|exact Logic.I]. split; [exact N|]. split.
    - unfold es. change ([Txt l] :: List.map (fun l => [Txt l]) ls) with (List.map (fun l => [Txt l]) (l :: ls)). apply Forall_map. eapply Forall_impl; [|exact F].
      intros m (O & R). split; [apply made_txt; exact O|]. rewrite show_txt. exact R.
    - destruct D as [D|D]; [left; exact D|right]. unfold es. destruct ls; [contradiction|discriminate]. }
  destruct (plainly _ _ _ Do Af W) as (w & R & U & V & Ru). exists w. split; [|split; [|split]].
  - unfold show_all in R. cbn [List.map concat show_stmt] in R. unfold es in R. rewrite app_nil_r, map_map, show_txt in R.
    rewrite (map_ext (fun l => continues ++ l) (fun l => continues ++ show [Txt l])); [exact R|]. intros m. rewrite show_txt. reflexivity.
  - eapply V; [apply set_same|]. apply Sv.
  - intros y Ny. apply U. cbn [assign_to w_env]. rewrite set_other by congruence. reflexivity.
  - intros t. specialize (Ru t). cbn in Ru. destruct (rule_of _ _ t); [destruct Ru|reflexivity].
Qed.

Lemma body_says : forall E body v s, val_says E v s ->
  val_says E (fold_left (fun v e => Plus v false (Later (e ++ [Txt nl]))) (List.map (fun l => [Txt l]) body) v) (s ++ concat (List.map (fun l => l ++ nl) body)).
Proof.
  intros E. induction body as [|l body IH]; intros v s H; cbn [List.map fold_left concat]; [rewrite app_nil_r; exact H|].
  replace (s ++ (l ++ nl) ++ concat (List.map (fun l => l ++ nl) body)) with ((s ++ [] ++ (l ++ nl ++ [])) ++ concat (List.map (fun l => l ++ nl) body)) by (rewrite app_nil_r, <- !app_assoc; reflexivity).
  apply IH. apply (VS_plus E v false); [exact H|]. constructor. cbn [app]. apply SY_txt, SY_txt, SY_nil.
Qed.
Lemma define_collects : forall fs x body, ascii_files fs -> name x -> nested 1 (List.map (fun l => [Txt l]) body) ->
  exists w, reads_to fs (lit "define " ++ x ++ nl ++ concat (List.map (fun l => l ++ nl) body) ++ lit "endef" ++ nl) (Ok (w, MOk)) /\
    has_value fs w x (concat (List.map (fun l => l ++ nl) body)) /\ (forall y, y <> x -> undefined w y) /\ forall t, rule_of (w_names w) (w_db w) t = None.
Proof.
  intros fs x body Af N Ne. eassert (Do : does_all fs w_start [SDefine x (List.map (fun l => [Txt l]) body)] _).
  { econstructor; [apply D_define|]. constructor. }
  destruct (plainly _ _ _ Do Af (conj (conj N Ne) Logic.I)) as (w & R & U & V & Ru).
  exists w. unfold show_all in R. cbn [List.map concat show_stmt] in R. rewrite app_nil_r, map_map in R.
  split; [|split; [|split]].
  - rewrite (map_ext (fun l => l ++ nl) (fun l => show [Txt l] ++ nl)); [exact R|]. intros l. rewrite show_txt. reflexivity.
  - eapply V; [apply set_same|]. unfold body_val. rewrite <- (app_nil_l (concat _)). apply body_says. constructor. constructor.
  - intros y Ny. apply U. cbn [assign_to w_env]. rewrite set_other by congruence. reflexivity.
  - intros t. specialize (Ru t). cbn in Ru. destruct (rule_of _ _ t); [destruct Ru|reflexivity].
Qed.

Lemma split_plain : forall x w r, Forall word_char x -> split_at (fun c => c) is_whitespace w (x ++ r) = split_at (fun c => c) is_whitespace (w ++ x) r.
Proof.
  induction x as [|c x IH]; intros w r F; [rewrite app_nil_r; reflexivity|]. inversion F as [|? ? W F']; subst. cbn [app split_at].
  apply word_facts in W as (_ & -> & _). rewrite IH, <- app_assoc by exact F'. reflexivity.
Qed.
Lemma words_join : forall ws, Forall name ws -> words (join c_space ws) = ws.
Proof.
  intros ws F. unfold words. induction F as [|x ws N F IH]; [reflexivity|].
  destruct x as [|c x]; [destruct N as (N & _); contradiction|]. destruct ws as [|y ws].
  - cbn [join]. rewrite <- (app_nil_r (c :: x)) at 1. rewrite split_plain by apply N. reflexivity.
  - change (join c_space ((c :: x) :: y :: ws)) with ((c :: x) ++ c_space :: join c_space (y :: ws)). rewrite split_plain by apply N.
    cbn [split_at app]. change (is_whitespace c_space) with true. cbn match. cbn [word_and]. rewrite IH. reflexivity.
Qed.
Definition cmd_expr (c : str * list str) : wexpr := Txt (fst c) :: concat (List.map (fun k => [Txt [c_bslash; c_nl]; Txt k]) (snd c)).
Lemma plain_line : forall l, plain_command l -> command_line [Txt l].
Proof. intros l [A B]. split; [apply made_txt; exact A|]. rewrite show_txt. exact B. Qed.
Lemma ordinary_plain : forall l, Forall ordinary l -> plain_command l.
Proof. intros l F. split; [eapply Forall_impl; [exact ordinary_line|exact F]|apply ordinary_whole; exact F]. Qed.
Lemma cmd_recipe : forall l ks, plain_command l -> Forall (fun k => plain_command k /\ k <> []) ks -> recipe_expr (cmd_expr (l, ks)).
Proof.
  intros l ks Fl Fk. revert l Fl. induction Fk as [|k ks [Fk1 Nk] Fk IH]; intros l Fl; [apply RX_line, plain_line; exact Fl|].
  apply (RX_more [Txt l] (cmd_expr (k, ks))); [apply plain_line; exact Fl|apply IH; exact Fk1|]. unfold cmd_expr. cbn. intros X. apply app_eq_nil in X as [X _]. contradiction.
Qed.
Lemma cmd_says : forall E l ks, says E (cmd_expr (l, ks)) (l ++ concat (List.map (fun k => c_bslash :: c_nl :: k) ks)).
Proof.
  intros E l ks. unfold cmd_expr. cbn [fst snd]. constructor. induction ks as [|k ks IH]; [constructor|].
  cbn [List.map concat app]. change (c_bslash :: c_nl :: k ++ concat (List.map (fun k0 => c_bslash :: c_nl :: k0) ks)) with ([c_bslash; c_nl] ++ k ++ concat (List.map (fun k0 => c_bslash :: c_nl :: k0) ks)).
  constructor. constructor. exact IH.
Qed.
Lemma cmd_line : forall l ks, plain_command l -> Forall (fun k => plain_command k /\ k <> []) ks ->
  show_line (cmd_expr (l, ks)) = c_tab :: l ++ concat (List.map (fun k => [c_bslash; c_nl; c_tab] ++ k) ks) ++ nl.
Proof.
  intros l ks Fl Fk. unfold show_line. f_equal. rewrite app_assoc. f_equal. fold (tabbed (show (cmd_expr (l, ks)))). unfold cmd_expr. cbn [fst snd].
  change (show (Txt l :: concat (List.map (fun k => [Txt [c_bslash; c_nl]; Txt k]) ks))) with (l ++ show (concat (List.map (fun k => [Txt [c_bslash; c_nl]; Txt k]) ks))).
  rewrite tabbed_app. f_equal; [apply tabbed_plain; eapply Forall_impl; [exact line_inked|apply Fl]|].
  induction Fk as [|k ks [Fk1 Nk] Fk IH]; [reflexivity|]. cbn [List.map concat app].
  change (show (Txt [c_bslash; c_nl] :: Txt k :: concat (List.map (fun k => [Txt [c_bslash; c_nl]; Txt k]) ks))) with ([c_bslash; c_nl] ++ k ++ show (concat (List.map (fun k => [Txt [c_bslash; c_nl]; Txt k]) ks))).
  rewrite !tabbed_app, IH. rewrite (tabbed_plain k) by (eapply Forall_impl; [exact line_inked|apply Fk1]). reflexivity.
Qed.
Lemma commands_kept : forall fs t deps cmds z v, ascii_files fs -> name t -> Forall name deps ->
  Forall (fun c => plain_command (fst c) /\ Forall (fun k => plain_command k /\ k <> []) (snd c)) cmds -> name z -> plain_value v ->
  exists w r, reads_to fs (t ++ lit ": " ++ join c_space deps ++ nl ++
      concat (List.map (fun c => c_tab :: fst c ++ concat (List.map (fun k => [c_bslash; c_nl; c_tab] ++ k) (snd c)) ++ nl) cmds) ++ z ++ lit " = " ++ v ++ nl) (Ok (w, MOk)) /\
    option_map view (rule_of (w_names w) (w_db w) t) = Some r /\ List.map block_text (rv_deps r) = deps /\
    Forall2 (fun c a => expands_to fs w a (fst c ++ concat (List.map (fun k => [c_bslash; c_nl] ++ k) (snd c)))) cmds (rv_recipe r) /\
    has_value fs w z v /\ (forall y, y <> z -> undefined w y) /\ (forall u, u <> t -> rule_of (w_names w) (w_db w) u = None).
Proof.
  intros fs t deps cmds z v Af Nt Fd Fl Nz Vv.
  assert (Ud : unreserved (join c_space deps)).
  { destruct deps as [|d ds]; [|apply join_unreserved_end; [discriminate|exact Fd]]. intros k r I E. cbn in I. repeat (destruct I as [<-|I]; [discriminate|]). destruct I. }
  assert (Jd : Forall (fun c => word_char c \/ c = c_space) (join c_space deps)) by (apply join_forall; auto).
  assert (De : deps_expr [Txt (join c_space deps)]).
  { split; [apply made_txt; exact Jd|]. rewrite show_txt. destruct deps as [|d ds]; [exact Ud|].
    destruct (join_first (d :: ds)) as (c & l & E & W & _); [discriminate|exact Fd|]. rewrite E. cbn [trim_start]. apply word_facts in W as (_ & -> & _). rewrite <- E. exact Ud. }
  assert (Ml : Forall recipe_expr (List.map cmd_expr cmds)) by (rewrite Forall_map; eapply Forall_impl; [|exact Fl]; intros [l ks] [A B]; apply cmd_recipe; assumption).
  eassert (Do : does_all fs w_start [SRule [t] false [Txt (join c_space deps)] (List.map cmd_expr cmds); SAssign z OSet [Txt v]] _).
  { econstructor; [eapply D_rule; [apply says_txt|]|].
    - intros c I Q. rewrite Forall_forall in Jd. destruct (Jd c I) as [W| ->]; [apply word_facts in W as (_ & _ & G & _); apply G; cbn in Q |- *; tauto|]. cbn in Q. unfold c_space in Q. lia.
    - econstructor; [apply D_assign, G_set|]. constructor. }
  destruct (plainly _ _ _ Do Af (conj (conj (one_not_nil t) (conj (Forall_cons _ Nt (Forall_nil _)) (conj De Ml))) (conj (conj Nz (value_txt _ Vv)) Logic.I))) as (w & R & U & V & Ru).
  unfold show_all in R. cbn [List.map concat show_stmt join] in R. rewrite !show_txt, app_nil_r, <- !app_assoc, map_map in R.
  cbn in Ru. unfold combined in Ru. cbn in Ru.
  pose proof (Ru t) as Rt. rewrite set_same in Rt.
  destruct (option_map view (rule_of (w_names w) (w_db w) t)) as [r|] eqn:Er; [|destruct (List.map cmd_expr cmds); destruct Rt].
  exists w, r. split; [|split; [exact Er|split; [|split; [|split; [|split]]]]].
  - erewrite map_ext_in; [exact R|]. intros [l ks] I. rewrite Forall_forall in Fl. destruct (Fl _ I) as [A B]. symmetry. apply cmd_line; assumption.
  - rewrite <- (words_join deps Fd). destruct (List.map cmd_expr cmds); cbn in Rt; apply Rt.
  - assert (X : exists E, Forall2 (fun e a => forall m, says E e m -> expands_to fs w a m) (List.map cmd_expr cmds) (rv_recipe r)).
    { eexists. destruct (List.map cmd_expr cmds); cbn in Rt; apply Rt. }
    destruct X as [E X]. clear - X. revert X. generalize (rv_recipe r). induction cmds as [|[l ks] cmds IH]; intros rs X; inversion X; subst; constructor; auto. apply H1. apply cmd_says.
  - eapply V; [apply set_same|]. constructor. apply says_txt.
  - intros y Ny. apply U. cbn [assign_to w_env]. rewrite set_other by congruence. reflexivity.
  - intros u Nu. specialize (Ru u). rewrite set_other in Ru by congruence. cbn in Ru. destruct (rule_of _ _ u); [destruct Ru|reflexivity].
Qed.
Lemma recipe_kept : forall fs t deps lines z v, ascii_files fs -> name t -> Forall name deps -> Forall plain_command lines -> name z -> plain_value v ->
  exists w r, reads_to fs (t ++ lit ": " ++ join c_space deps ++ nl ++ concat (List.map (fun l => c_tab :: l ++ nl) lines) ++ z ++ lit " = " ++ v ++ nl) (Ok (w, MOk)) /\
    option_map view (rule_of (w_names w) (w_db w) t) = Some r /\ List.map block_text (rv_deps r) = deps /\ Forall2 (fun l a => expands_to fs w a l) lines (rv_recipe r) /\
    has_value fs w z v /\ (forall y, y <> z -> undefined w y) /\ (forall u, u <> t -> rule_of (w_names w) (w_db w) u = None).
Proof.
  intros fs t deps lines z v Af Nt Fd Fl Nz Vv.
  destruct (commands_kept fs t deps (List.map (fun l => (l, [])) lines) z v Af Nt Fd) as (w & r & R & Er & Ed & F & X); auto.
  { rewrite Forall_map. eapply Forall_impl; [|exact Fl]. intros l O. split; [exact O|constructor]. }
  rewrite map_map in R. exists w, r. split; [exact R|]. split; [exact Er|]. split; [exact Ed|]. split; [|exact X].
  clear - F. revert F. generalize (rv_recipe r). induction lines as [|l lines IH]; intros rs F; inversion F; subst; constructor; auto.
  cbn [fst snd List.map concat] in H1. rewrite app_nil_r in H1. exact H1.
Qed.

(** A branch that is not taken, without `else`: everything after the `endif` is ignored. *)
Definition plain_condition (a : str) : Prop := Forall (fun c => ordinary c /\ ~ In c [40; 41; 44]%N) a /\ not_blank_first a.
Lemma condition_txt : forall a, plain_condition a -> condition_expr [Txt a].
Proof. intros a [A B]. split; [apply made_txt; exact A|rewrite show_txt; exact B]. Qed.
Definition straight (c : stmt) : Prop :=
  match c with SIf _ _ _ _ _ => False | SDefine _ body => Forall silent body | SRule _ _ _ recipe | SRuleFor _ _ _ _ recipe => Forall quiet recipe | _ => True end.
Lemma straight_ignored : forall fs live s cs, w_deaf s = true -> w_open s = None -> every straight cs -> acts_all fs live s cs s.
Proof.
  intros fs live s cs D O. induction cs as [|c cs IH]; intros W; [constructor|]. destruct W as [Q W]. econstructor; [|apply IH; exact W].
  destruct c; cbn in Q; [constructor| | | | | | | | | |destruct Q]; (apply A_ignored; [exact D|]); constructor; assumption.
Qed.
Lemma differ : forall a b, trim a <> trim b -> holds (Parens false) a b = false.
Proof. intros a b H. unfold holds. destruct (list_eq_dec N.eq_dec (trim a) (trim b)); [contradiction|reflexivity]. Qed.
Lemma every_app : forall P a b, every P (a ++ b) <-> every P a /\ every P b.
Proof. intros P a b. rewrite !every_forall. apply Forall_app. Qed.
Lemma show_app : forall a b, show_all (a ++ b) = show_all a ++ show_all b.
Proof. intros a b. unfold show_all. rewrite map_app, concat_app. reflexivity. Qed.
Lemma never_again : forall fs a b yes rest, ascii_files fs -> plain_condition a -> plain_condition b -> trim a <> trim b ->
  every well_formed (yes ++ rest) -> every straight (yes ++ rest) ->
  exists w, reads_to fs (lit "ifeq (" ++ a ++ lit "," ++ b ++ lit ")" ++ nl ++ show_all yes ++ lit "endif" ++ nl ++ show_all rest) (Ok (w, MOk)) /\
    (forall x, undefined w x) /\ forall t, rule_of (w_names w) (w_db w) t = None.
Proof.
  intros fs a b yes rest Af A B N W Q. apply every_app in W as [W1 W2]. apply every_app in Q as [Q1 Q2].
  assert (Do : acts_all fs true w_start (SIf (Parens false) [Txt a] [Txt b] yes None :: rest) (heard w_start false)).
  { econstructor; [|apply straight_ignored; [reflexivity|reflexivity|exact Q2]]. eapply A_if; [apply says_txt|apply says_txt|]. rewrite differ by exact N.
    apply straight_ignored; [reflexivity|reflexivity|exact Q1]. }
  destruct (exactly _ _ _ Do Af) as (w & R & U & _ & Ru).
  { split; [|exact W2]. split; [split; apply condition_txt; assumption|]. split; [exact W1|exact Logic.I]. }
  exists w. split; [|split].
  - unfold show_all at 1 in R. cbn [List.map concat show_stmt if_text] in R. fold show_stmt in R. rewrite !show_txt in R. cbn [app] in R. rewrite <- !app_assoc in R. exact R.
  - intros x. apply U. reflexivity.
  - intros t. specialize (Ru t). cbn in Ru. destruct (rule_of _ _ t); [destruct Ru|reflexivity].
Qed.

Definition txt (l : str) : wexpr := [Txt l].
Lemma commands_shown : forall ls, Forall plain_command ls -> List.map (fun l => c_tab :: l ++ nl) ls = List.map (fun l => show_line (txt l)) ls.
Proof.
  intros ls F. apply map_ext_in. intros l I. rewrite Forall_forall in F. rewrite show_line_plain by (apply plain_line; auto). unfold txt. rewrite show_txt. reflexivity.
Qed.
Lemma lines_shown : forall ls, Forall (Forall ordinary) ls -> List.map (fun l => c_tab :: l ++ nl) ls = List.map (fun l => show_line (txt l)) ls.
Proof.
  intros ls F. apply map_ext_in. intros l I. rewrite Forall_forall in F. rewrite show_line_plain by (apply plain_line, ordinary_plain; auto). unfold txt. rewrite show_txt. reflexivity.
Qed.
(** The recipe of an ignored rule goes to the rule before it. *)
Lemma stolen_recipe : forall fs t lines a b u lines' z v, ascii_files fs -> name t -> Forall (Forall ordinary) lines -> plain_condition a -> plain_condition b ->
  trim a <> trim b -> name u -> u <> t -> Forall (Forall ordinary) lines' -> name z -> plain_value v ->
  exists w r, reads_to fs (t ++ lit ": " ++ nl ++ concat (List.map (fun l => c_tab :: l ++ nl) lines) ++
      lit "ifeq (" ++ a ++ lit "," ++ b ++ lit ")" ++ nl ++
      u ++ lit ": " ++ nl ++ concat (List.map (fun l => c_tab :: l ++ nl) lines') ++
      lit "else" ++ nl ++ z ++ lit " = " ++ v ++ nl ++ lit "endif" ++ nl) (Ok (w, MOk)) /\
    option_map view (rule_of (w_names w) (w_db w) t) = Some r /\ Forall2 (fun l a => expands_to fs w a l) (lines ++ lines') (rv_recipe r) /\
    rule_of (w_names w) (w_db w) u = None.
Proof.
  intros fs t lines a b u lines' z v Af Nt Fl A B N Nu Ut Fl' Nz Vv.
  assert (Ml : forall ls, Forall (Forall ordinary) ls -> Forall recipe_expr (List.map txt ls)) by (intros ls F; rewrite Forall_map; eapply Forall_impl; [|exact F]; intros l O; apply RX_line, plain_line, ordinary_plain, O).
  assert (De : deps_expr []).
  { split; [constructor|]. intros k r I E. cbn in I. repeat (destruct I as [<-|I]; [discriminate|]). destruct I. }
  eassert (Do : acts_all fs true w_start [SRule [t] false [] (List.map txt lines);
    SIf (Parens false) [Txt a] [Txt b] [SRule [u] false [] (List.map txt lines')] (Some [SAssign z OSet [Txt v]])] _).
  { econstructor; [eapply A_rule; [reflexivity|constructor|intros c []]|]. econstructor; [|constructor].
    eapply A_else; [apply says_txt|apply says_txt| |]; rewrite differ by exact N; cbn [andb negb].
    - econstructor; [|constructor]. apply A_ignored; [reflexivity|]. apply I_recipe. reflexivity.
    - econstructor; [|constructor]. apply A_assign; [reflexivity|apply G_set]. }
  destruct (exactly _ _ _ Do Af) as (w & R & U & _ & Ru).
  { split; [split; [apply one_not_nil|split; [constructor; [exact Nt|constructor]|split; [exact De|apply Ml; exact Fl]]]|]. split; [|exact Logic.I].
    split; [split; apply condition_txt; assumption|]. split.
    - split; [|exact Logic.I]. split; [apply one_not_nil|split; [constructor; [exact Nu|constructor]|split; [exact De|apply Ml; exact Fl']]].
    - split; [|exact Logic.I]. split; [exact Nz|apply value_txt; exact Vv]. }
  assert (X : List.map txt lines ++ List.map txt lines' = List.map txt (lines ++ lines')) by (symmetry; apply map_app).
  pose proof (Ru t) as Rt. specialize (Ru u). unfold combined, heard in Ru, Rt. cbn in Ru, Rt. rewrite X in Ru, Rt. rewrite set_same in Rt. rewrite set_other in Ru by congruence.
  destruct (option_map view (rule_of (w_names w) (w_db w) t)) as [r|] eqn:Er; [|destruct (List.map txt (lines ++ lines')); destruct Rt].
  exists w, r. split; [|split; [exact Er|split]].
  - unfold show_all in R. cbn [List.map concat show_stmt if_text join] in R. fold show_stmt in R. rewrite !show_txt in R. cbn [show List.map concat] in R. rewrite !app_nil_r in R.
    rewrite <- !app_assoc in R. rewrite !map_map in R. cbn [app] in R. cbn [app].
    rewrite !lines_shown by assumption. exact R.
  - assert (Y : exists E, Forall2 (fun e a => forall m, says E e m -> expands_to fs w a m) (List.map txt (lines ++ lines')) (rv_recipe r)).
    { eexists. destruct (List.map txt (lines ++ lines')); cbn in Rt; apply Rt. }
    destruct Y as [E Y]. clear - Y. revert Y. generalize (rv_recipe r). induction (lines ++ lines') as [|l ls IH]; intros rs Y; inversion Y; subst; constructor; auto. apply H1. apply says_txt.
  - cbn in Ru. destruct (rule_of _ _ u); [destruct Ru|reflexivity].
Qed.

(** Everything from a `#` in the first column up to the last `#` is a comment. *)
Lemma comment_swallows : forall fs p l x v, ascii_files fs -> asciis p -> Forall ordinary l -> name x -> plain_value v ->
  exists w, reads_to fs (lit "#" ++ p ++ lit "#" ++ l ++ nl ++ x ++ lit " = " ++ v ++ nl) (Ok (w, MOk)) /\
    has_value fs w x v /\ (forall y, y <> x -> undefined w y) /\ forall t, rule_of (w_names w) (w_db w) t = None.
Proof.
  intros fs p l x v Af Ap Fl N V.
  eassert (Do : does_all fs w_start [SAssign x OSet [Txt v]] _). { econstructor; [apply D_assign, G_set|constructor]. }
  assert (Wr : written [SAssign x OSet [Txt v]] (lit "#" ++ p ++ lit "#" ++ l ++ nl ++ x ++ lit " = " ++ v ++ nl)).
  { eassert (Z : written [SAssign x OSet [Txt v]] _) by (apply (WR_comment _ (p ++ lit "#") l); [apply Forall_app; split; [exact Ap|repeat constructor]|right; exists p; reflexivity|
      eapply Forall_impl; [|exact Fl]; auto]).
    unfold show_all in Z. cbn [List.map concat show_stmt] in Z. rewrite show_txt, app_nil_r, <- !app_assoc in Z. exact Z. }
  destruct (expected_reads fs _ _ _ Af (conj (conj N (value_txt _ V)) Logic.I : every well_formed [SAssign x OSet [Txt v]]) Wr Do) as (w & R & U & Va & Ru).
  exists w. split; [exact R|]. split; [|split].
  - eapply Va; [apply set_same|]. constructor. apply says_txt.
  - intros y Ny. apply U. cbn [assign_to w_env]. rewrite set_other by congruence. reflexivity.
  - intros t. specialize (Ru t). cbn in Ru. destruct (rule_of _ _ t); [destruct Ru|reflexivity].
Qed.

(** The last rule of an included file is lost, even if the makefile goes on. *)
Lemma included_rule_lost : forall fs n t lines z v, ascii_files fs -> name n -> name t -> Forall (Forall ordinary) lines -> name z -> plain_value v ->
  fs n = FText (t ++ lit ": " ++ nl ++ concat (List.map (fun l => c_tab :: l ++ nl) lines)) ->
  exists w, reads_to fs (lit "include " ++ n ++ nl ++ z ++ lit " = " ++ v ++ nl) (Ok (w, MOk)) /\
    has_value fs w z v /\ rule_of (w_names w) (w_db w) t = None.
Proof.
  intros fs n t lines z v Af Nn Nt Fl Nz V Fn.
  assert (De : deps_expr []).
  { split; [constructor|]. intros k r I E. cbn in I. repeat (destruct I as [<-|I]; [discriminate|]). destruct I. }
  assert (Ml : Forall recipe_expr (List.map (fun l => [Txt l]) lines)) by (rewrite Forall_map; eapply Forall_impl; [|exact Fl]; intros l O; apply RX_line, plain_line, ordinary_plain, O).
  assert (Wf : every well_formed [SRule [t] false [] (List.map (fun l => [Txt l]) lines)]).
  { split; [|exact Logic.I]. split; [apply one_not_nil|]. split; [constructor; [exact Nt|constructor]|]. split; [exact De|exact Ml]. }
  assert (Wr : written [SRule [t] false [] (List.map (fun l => [Txt l]) lines)] (t ++ lit ": " ++ nl ++ concat (List.map (fun l => c_tab :: l ++ nl) lines))).
  { eassert (Z : written [SRule [t] false [] (List.map (fun l => [Txt l]) lines)] _) by apply WR_plain. unfold show_all in Z. cbn [List.map concat show_stmt join show app] in Z.
    rewrite app_nil_r, map_map in Z. rewrite lines_shown by assumption. exact Z. }
  eassert (Do : does_all fs w_start [SInclude false [Txt n]; SAssign z OSet [Txt v]] _).
  { econstructor; [|econstructor; [apply D_assign, G_set|constructor]]. eapply D_include; [apply says_txt| |].
    - intros c I. destruct Nn as (_ & F & _). rewrite Forall_forall in F. apply F in I. unfold word_char in I. cbn. lia.
    - replace (words n) with [n] by (symmetry; apply (words_join [n]); constructor; [exact Nn|constructor]).
      eapply BR_file; [exact Fn|exact Wr|exact Wf| |constructor]. econstructor; [|constructor]. eapply D_rule; [constructor|]. intros c []. }
  destruct (plainly _ _ _ Do Af) as (w & R & U & Va & Ru).
  { split; [|split; [|exact Logic.I]]; [|split; [exact Nz|apply value_txt; exact V]]. apply made_txt. destruct Nn as (_ & F & _). eapply Forall_impl; [|exact F]. intros c Wc. left. exact Wc. }
  exists w. split; [|split].
  - unfold show_all in R. cbn [List.map concat show_stmt] in R. rewrite !show_txt, app_nil_r, <- !app_assoc in R. exact R.
  - eapply Va; [apply set_same|]. constructor. apply says_txt.
  - specialize (Ru t). cbn in Ru. destruct (rule_of _ _ t); [destruct Ru|reflexivity].
Qed.

(** Malformed conditionals. *)
Lemma acts_app : forall fs live cs s s1 ds s2, acts_all fs live s cs s1 -> acts_all fs live s1 ds s2 -> acts_all fs live s (cs ++ ds) s2.
Proof.
  intros fs live. induction cs as [|c cs IH]; intros s s1 ds s2 A B; inversion A; subst; [exact B|]. cbn [app]. econstructor; [eassumption|]. eapply IH; eauto.
Qed.
Lemma malformed_ignored : forall fs ss s k ws, ascii_files fs -> every well_formed ss -> acts_all fs true w_start ss s ->
  In k ["ifeq"; "ifneq"]%string -> Forall name ws ->
  exists w, reads_to fs (show_all ss ++ join c_space (lit k :: ws) ++ nl) (Ok (w, MOk)) /\ shows_state fs (if w_deaf s then s else finish s) w.
Proof.
  intros fs ss s k ws Af W A K F.
  assert (Wl : word_line (lit k :: ws)) by (split; [destruct K as [<-|[<-|[]]]; auto|exact F]).
  assert (B : acts_all fs true s [SWords (lit k :: ws)] (if w_deaf s then s else finish s)).
  { econstructor; [|constructor]. destruct (w_deaf s) eqn:D; [apply A_ignored; [exact D|apply I_words]|apply A_words; exact D]. }
  replace (show_all ss ++ join c_space (lit k :: ws) ++ nl) with (show_all (ss ++ [SWords (lit k :: ws)])).
  - eapply written_reads; [exact Af| |apply WR_plain|eapply acts_app; eauto]. apply every_app. split; [exact W|]. split; [exact Wl|exact Logic.I].
  - unfold show_all. rewrite map_app, concat_app. cbn [List.map concat show_stmt]. rewrite app_nil_r. reflexivity.
Qed.
