(** Sensitivity of blocks cut out of others. *)
From Coq Require Import String.
From Verif Require Import Base LocModel EvdModel NomModel ParseModel EvdSpec ParseSpec EvalSpec
  EvdProofs EvdProofs2 EvdProofs3 DbProofs EvalProofs3 ParseProofs ParseProofs2 AstParseSpec AstParseProofs AstParseProofs2.
Local Open Scope nat_scope.

Definition same_sens (p b : block) : Prop := forall id, In id (b_sens b) <-> In id (b_sens p).

Lemma bind_parts : forall {A B} (x : res A) (f : A -> res B) y, bind x f = Ok y -> exists a, x = Ok a /\ f a = Ok y.
Proof. intros A B x f y E. destruct x; cbn in E; try discriminate. eauto. Qed.

Lemma revalidate_parent : forall s s', revalidate s = Ok s' -> sp_parent s' = sp_parent s.
Proof.
  intros s s' E. unfold revalidate in E. destruct (sp_len s =? 0); [inversion E; reflexivity|].
  apply bind_parts in E as ([o cs] & _ & E). inversion E; reflexivity.
Qed.

Lemma slice_from_parent : forall s n s', slice_from s n = Ok s' -> sp_parent s' = sp_parent s.
Proof. intros s n s' E. unfold slice_from in E. apply bind_parts in E as (k & _ & E). apply revalidate_parent in E. exact E. Qed.

Lemma slice_range_parent : forall s a b s', slice_range s a b = Ok s' -> sp_parent s' = sp_parent s.
Proof. intros s a b s' E. unfold slice_range in E. repeat (apply bind_parts in E as (? & ? & E)). apply revalidate_parent in E. exact E. Qed.

Lemma push_same : forall p b s b', same_sens p b -> sp_parent s = p -> push_all_contents b s = Ok b' -> same_sens p b'.
Proof.
  intros p b s b' H P E. unfold push_all_contents in E. destruct (sp_len s =? 0); [inversion E; subst; exact H|].
  apply bind_parts in E as (cs & _ & E). inversion E; subst. intros id. cbn [b_sens]. rewrite set_union_In, (H id). tauto.
Qed.

Lemma simplify_same : forall p b b', same_sens p b -> block_simplify b = Ok b' -> same_sens p b'.
Proof. intros p b b' H E. unfold block_simplify in E. apply bind_parts in E as (cs & _ & E). inversion E; subst. exact H. Qed.

Lemma new_same : forall s b, 0 < sp_len s -> to_new_block s = Ok b -> same_sens (sp_parent s) b.
Proof.
  intros s b L E. unfold to_new_block in E. destruct (sp_len s =? 0) eqn:Z; [apply Nat.eqb_eq in Z; lia|].
  apply bind_parts in E as (cs & _ & E). intros id. rewrite (block_new_sens _ _ _ E). tauto.
Qed.

Lemma unquote_loop_same : forall i stop boom l tr sc l1 nps tr' sc' l1' nps' f, same_sens (sp_parent i) tr ->
  unquote_loop i stop l boom tr sc l1 nps = Ok (tr', sc', l1', nps', f) -> same_sens (sp_parent i) tr'.
Proof.
  intros i stop boom. induction l as [|(k & c) l IH]; intros tr sc l1 nps tr' sc' l1' nps' f H E; cbn [unquote_loop] in E.
  - destruct boom; [discriminate|]. inversion E; subst; exact H.
  - destruct (stop c); [|eapply IH; eassumption]. apply bind_parts in E as (x & _ & E). destruct (Nat.odd (k - l1)).
    + apply bind_parts in E as (pc & Ep & E). apply bind_parts in E as (tr1 & E1 & E). eapply IH; [|exact E].
      eapply push_same; [exact H| |exact E1]. eapply slice_range_parent; exact Ep.
    + apply bind_parts in E as (pc & Ep & E). apply bind_parts in E as (tr1 & E1 & E). inversion E; subst.
      eapply push_same; [exact H| |exact E1]. eapply slice_range_parent; exact Ep.
Qed.

Lemma unquote_same : forall i stop b r, 0 < sp_len i -> makefile_take_until_unquote i stop = Ok (b, r) ->
  same_sens (sp_parent i) b /\ match r with Some (_, post) => sp_parent post = sp_parent i | None => True end.
Proof.
  intros i stop b r L E. unfold makefile_take_until_unquote in E. destruct (span_indices i) as (l & boom).
  apply bind_parts in E as (((((tr & sc) & l1) & nps) & found) & E1 & E).
  apply unquote_loop_same in E1; [|intros id; cbn [b_sens]; tauto].
  apply bind_parts in E as (((tr2 & nps2) & at_) & E2 & E).
  assert (H2 : same_sens (sp_parent i) tr2).
  { destruct found as [idx|]; [inversion E2; subst; exact E1|]. destruct (stop 0%N); [|inversion E2; subst; exact E1].
    apply bind_parts in E2 as (pc & Ep & E2). apply bind_parts in E2 as (tr3 & E3 & E2).
    assert (H3 : same_sens (sp_parent i) tr3) by (eapply push_same; [exact E1| |exact E3]; eapply slice_range_parent; exact Ep).
    destruct (Nat.odd (sp_len i - l1)); [inversion E2; subst; exact H3|]. apply bind_parts in E2 as (x & _ & E2). inversion E2; subst; exact H3. }
  destruct (at_ <? sp_len i).
  - apply bind_parts in E as (c & _ & E). apply bind_parts in E as (tr3 & E3 & E). apply bind_parts in E as (post & Ep & E). inversion E; subst.
    split; [eapply simplify_same; eassumption|eapply slice_from_parent; exact Ep].
  - destruct (at_ =? sp_len i).
    + apply bind_parts in E as (c & _ & E). apply bind_parts in E as (tr3 & E3 & E). apply bind_parts in E as (post & Ep & E). inversion E; subst.
      split; [eapply simplify_same; eassumption|eapply slice_from_parent; exact Ep].
    + destruct sc as [c|].
      * apply bind_parts in E as (pc & Ep & E). apply bind_parts in E as (tr3 & E3 & E). apply bind_parts in E as (tr4 & E4 & E). inversion E; subst.
        split; [|exact Logic.I]. eapply simplify_same; [|exact E4]. eapply push_same; [exact H2| |exact E3]. eapply slice_from_parent; exact Ep.
      * apply bind_parts in E as (b' & Eb & E). inversion E; subst. split; [|exact Logic.I]. apply new_same; assumption.
Qed.

Lemma same_trans : forall a b c, same_sens a b -> same_sens b c -> same_sens a c.
Proof. intros a b c H K id. rewrite (K id). apply H. Qed.

Lemma file_seq_loop_same : forall extra fuel i out bs, Forall (same_sens (sp_parent i)) out ->
  file_seq_loop fuel false extra i out = Ok bs -> Forall (same_sens (sp_parent i)) bs.
Proof.
  intros extra. induction fuel as [|fuel IH]; intros i out bs F E; cbn [file_seq_loop] in E; [discriminate|].
  destruct (0 <? sp_len i) eqn:L; [|inversion E; subst; exact F]. apply Nat.ltb_lt in L.
  apply bind_parts in E as ((pre & r) & E1 & E). destruct (unquote_same _ _ _ _ L E1) as (S1 & P1).
  apply bind_parts in E as (i' & E2 & E).
  assert (P2 : sp_parent i' = sp_parent i).
  { destruct r as [(c & post)|]; [inversion E2; subst; exact P1|eapply slice_from_parent; exact E2]. }
  apply bind_parts in E as (out' & E3 & E). rewrite <- P2. eapply IH; [|exact E]. rewrite P2.
  destruct (0 <? block_len pre) eqn:Lb; [|inversion E3; subst; exact F]. apply Nat.ltb_lt in Lb.
  apply bind_parts in E3 as (b & E4 & E3). inversion E3; subst. apply Forall_app. split; [exact F|]. constructor; [|constructor].
  unfold clean_match in E4. cbn [bind] in E4. eapply same_trans; [exact S1|]. apply new_same in E4; [exact E4|exact Lb].
Qed.

Lemma file_seq_same : forall b extra bs, wf_block b -> parse_file_seq (block_span b) false extra = Ok bs -> Forall (same_sens b) bs.
Proof.
  intros b extra bs W E. unfold parse_file_seq in E.
  destruct (whitespace_keeps (block_span b) (block_span_wf b W)) as (r & q & E1 & K & _). rewrite E1 in E. cbn [bind] in E.
  destruct K as (_ & _ & _ & P & _). cbn [block_span sp_parent] in P. rewrite <- P. eapply file_seq_loop_same; [constructor|exact E].
Qed.
