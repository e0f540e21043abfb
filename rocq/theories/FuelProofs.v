(** More fuel never changes a result of the evaluator or the engine. *)
From Verif Require Import Base LocModel EvdModel NomModel AstModel ParseModel AstParseModel EngineModel.

(** The two results agree unless the first ran out of fuel. *)
Definition below {A} (r r' : res A) : Prop := r = OutOfFuel \/ r = r'.

Lemma below_refl : forall {A} (r : res A), below r r.
Proof. intros. right. reflexivity. Qed.
Lemma below_ok : forall {A} (r r' : res A) x, below r r' -> r = Ok x -> r' = Ok x.
Proof. intros A r r' x [H|H]; congruence. Qed.
Lemma below_trans : forall {A} (a b c : res A), below a b -> below b c -> below a c.
Proof. intros A a b c [->| ->]; [left; reflexivity|auto]. Qed.
Lemma below_bind : forall {A B} (r r' : res A) (f f' : A -> res B), below r r' -> (forall x, below (f x) (f' x)) ->
  below (bind r f) (bind r' f').
Proof. intros A B r r' f f' [->| ->] H; [left; reflexivity|]. destruct r'; cbn; auto using below_refl. Qed.

Ltac mono :=
  repeat match goal with
    | |- below ?x ?x => apply below_refl
    | |- below (bind _ _) (bind _ _) => apply below_bind; [|intros ?]
    | |- below (wbind _ _ _) (wbind _ _ _) => unfold wbind
    | H : forall _, _ |- below _ _ => simple apply H
    | |- below (match ?x with _ => _ end) (match ?x with _ => _ end) => destruct x
    | |- below (let (_, _) := ?x in _) (let (_, _) := ?x in _) => destruct x
    end.

Section Mono.
  Context (ev ev' : world -> ast -> res (world * block)) (pb pb' : world -> block -> res (world * mresult)).
  Context (rm rm' : world -> str -> str -> res (world * mresult)) (fs : str -> file).
  Context (Hev : forall w a, below (ev w a) (ev' w a)) (Hpb : forall w b, below (pb w b) (pb' w b))
          (Hrm : forall w n t, below (rm w n t) (rm' w n t)).

  Lemma deref_mono : forall w sens nm, below (deref_variable ev w sens nm) (deref_variable ev' w sens nm).
  Proof. intros. unfold deref_variable. mono. Qed.

  Fixpoint eval_internal_mono (w : world) (a : ast) : below (eval_internal ev pb w a) (eval_internal ev' pb' w a).
  Proof.
    destruct a; cbn [eval_internal]; try apply below_refl.
    - revert w. generalize (@nil N) (@nil cref). induction nodes; intros; mono.
    - apply below_bind; [apply eval_internal_mono|intros ((? & ?) & ?)]. pose proof deref_mono. mono.
    - apply below_bind; [apply eval_internal_mono|intros ((? & ?) & ?)]. mono.
  Qed.

  Lemma eval_step_mono : forall w a, below (eval_step ev pb w a) (eval_step ev' pb' w a).
  Proof. intros. unfold eval_step. pose proof eval_internal_mono. mono. Qed.

  Lemma assignment_mono : forall m w i, below (parse_variable_assignment ev m w i) (parse_variable_assignment ev' m w i).
  Proof. intros. unfold parse_variable_assignment. mono. Qed.
  Lemma define_header_mono : forall m w i, below (parse_define_header ev m w i) (parse_define_header ev' m w i).
  Proof. intros. unfold parse_define_header. mono. Qed.
  Lemma variable_loop_mono : forall f m w i, below (variable_loop ev f m w i) (variable_loop ev' f m w i).
  Proof. pose proof assignment_mono. pose proof define_header_mono. induction f; intros; cbn [variable_loop]; mono. Qed.
  Lemma variable_line_mono : forall w i, below (variable_parse_line ev w i) (variable_parse_line ev' w i).
  Proof. pose proof variable_loop_mono. intros. unfold variable_parse_line. mono. Qed.

  Lemma expand_mono : forall B w seg (k k' : world -> block -> res (world * presult B)), (forall w b, below (k w b) (k' w b)) ->
    below (expand_segment ev w seg k) (expand_segment ev' w seg k').
  Proof. intros. unfold expand_segment. mono. Qed.
  Lemma target_loop_mono : forall f w n mw ps pc, below (target_loop ev f w n mw ps pc) (target_loop ev' f w n mw ps pc).
  Proof.
    induction f; intros; cbn [target_loop]; [apply below_refl|]. apply expand_mono. intros.
    mono. apply expand_mono. intros. mono.
  Qed.
  Lemma target_finish_mono : forall w r pc ac n ps, below (target_finish ev w r pc ac n ps) (target_finish ev' w r pc ac n ps).
  Proof. pose proof variable_line_mono. intros. unfold target_finish. mono; apply expand_mono; intros; mono. Qed.
  Lemma target_line_mono : forall w i, below (target_parse_line ev w i) (target_parse_line ev' w i).
  Proof. pose proof target_loop_mono. pose proof target_finish_mono. intros. unfold target_parse_line. mono. Qed.

  Lemma conditional_mono : forall s w c, below (handle_conditional ev s w c) (handle_conditional ev' s w c).
  Proof. intros. unfold handle_conditional. mono. Qed.
  Lemma include_files_mono : forall l w s, below (include_files rm fs w s l) (include_files rm' fs w s l).
  Proof. induction l; intros; cbn [include_files]; mono. Qed.
  Lemma handle_include_mono : forall w a s, below (handle_include ev rm fs w a s) (handle_include ev' rm' fs w a s).
  Proof. pose proof include_files_mono. intros. unfold handle_include. mono. Qed.
  Lemma directive_mono : forall s w d, below (handle_directive_action ev rm fs s w d) (handle_directive_action ev' rm' fs s w d).
  Proof. pose proof handle_include_mono. intros. unfold handle_directive_action. mono. Qed.

  Lemma run_parser_mono : forall A s w i (r : presult A) c c' n n', (forall x, below (c x) (c' x)) -> below (n tt) (n' tt) ->
    below (run_parser s w i r c n) (run_parser s w i r c' n').
  Proof. intros. unfold run_parser. mono. assumption. Qed.

  Lemma active_mono : forall s w i l, below (parse_active_line ev rm fs s w i l) (parse_active_line ev' rm' fs s w i l).
  Proof.
    pose proof variable_line_mono. pose proof directive_mono. pose proof target_line_mono.
    intros. unfold parse_active_line. apply below_bind; [mono|intros (w1 & r1)].
    apply run_parser_mono; [intros; mono|]. apply below_bind; [mono|intros r2].
    apply run_parser_mono; [intros; mono|]. apply below_bind; [mono|intros r3].
    destruct (match r3 with Some _ => _ | None => _ end); [apply below_refl|].
    apply below_bind; [mono|intros (w4 & r4)]. apply run_parser_mono; intros; mono.
  Qed.

  Lemma collapsed_mono : forall s w i, below (parse_collapsed_line ev rm fs s w i) (parse_collapsed_line ev' rm' fs s w i).
  Proof.
    pose proof active_mono. pose proof conditional_mono. intros. unfold parse_collapsed_line.
    apply below_bind; [mono|intros [i' l|ks|ks]; [|apply below_refl|apply below_refl]]. destruct (block_len l =? 0); [apply below_refl|].
    apply below_bind; [mono|intros r]. apply run_parser_mono; intros; mono.
  Qed.

  Lemma parse_line_mono : forall s w i, below (parse_line ev rm fs s w i) (parse_line ev' rm' fs s w i).
  Proof.
    pose proof collapsed_mono. intros. unfold parse_line.
    apply below_bind; [mono|intros r]. apply run_parser_mono; [intros; mono|].
    destruct (ps_rule s).
    - apply below_bind; [mono|intros r']. apply run_parser_mono; intros; mono.
    - destruct (ps_define s); mono.
  Qed.

  Lemma process_lines_mono : forall f s w i, below (process_lines ev rm fs f s w i) (process_lines ev' rm' fs f s w i).
  Proof. pose proof parse_line_mono. induction f; intros; cbn [process_lines]; mono. Qed.

  Lemma process_step_mono : forall w b, below (process_step ev rm fs w b) (process_step ev' rm' fs w b).
  Proof. pose proof process_lines_mono. intros. unfold process_step. mono. Qed.
End Mono.

Lemma read_with_mono : forall pb pb', (forall w b, below (pb w b) (pb' w b)) ->
  forall w n t, below (read_makefile_with pb w n t) (read_makefile_with pb' w n t).
Proof. intros. unfold read_makefile_with. mono. Qed.

Lemma fuel_S : forall fs f,
  (forall w a, below (eval_fuel fs f w a) (eval_fuel fs (S f) w a)) /\
  (forall w b, below (process_fuel fs f w b) (process_fuel fs (S f) w b)).
Proof.
  intros fs. induction f as [|f (IHe & IHp)]; [split; left; reflexivity|]. split; intros.
  - change (below (eval_step (eval_fuel fs f) (process_fuel fs f) w a) (eval_step (eval_fuel fs (S f)) (process_fuel fs (S f)) w a)).
    apply eval_step_mono; auto.
  - change (below (process_step (eval_fuel fs f) (read_makefile_with (process_fuel fs f)) fs w b)
                  (process_step (eval_fuel fs (S f)) (read_makefile_with (process_fuel fs (S f))) fs w b)).
    apply process_step_mono; auto. apply read_with_mono. exact IHp.
Qed.

Lemma eval_fuel_mono : forall fs f g w a, f <= g -> below (eval_fuel fs f w a) (eval_fuel fs g w a).
Proof. intros fs f g w a L. induction L; [apply below_refl|]. eapply below_trans; [exact IHL|apply fuel_S]. Qed.
Lemma process_fuel_mono : forall fs f g w b, f <= g -> below (process_fuel fs f w b) (process_fuel fs g w b).
Proof. intros fs f g w b L. induction L; [apply below_refl|]. eapply below_trans; [exact IHL|apply fuel_S]. Qed.

(** Two runs that both end agree, whatever the fuel. *)
Lemma eval_fuel_det : forall fs f g w a r r', eval_fuel fs f w a = r -> eval_fuel fs g w a = r' ->
  r <> OutOfFuel -> r' <> OutOfFuel -> r = r'.
Proof.
  intros fs f g w a r r' E E' N N'. destruct (Nat.le_ge_cases f g) as [L|L].
  - destruct (eval_fuel_mono fs f g w a L); congruence.
  - destruct (eval_fuel_mono fs g f w a L); congruence.
Qed.
