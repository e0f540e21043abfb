(** Text-level makefile semantics: rule lines. *)
From Coq Require Import String ZArith.
From Verif Require Import Base LocModel EvdModel NomModel AstModel ParseModel AstParseModel EngineModel
  EvdSpec DbSpec ParseSpec EvalSpec AstParseSpec EngineSpec MakeSpec
  EvdProofs EvdProofs3 ParseProofs ParseProofs2 ParseProofs3 ParseProofs4 ParseProofs5 EvalProofs2 EvalProofs3 EvalProofs4 FuelProofs
  DbProofs EvdProofs2 AstParseProofs AstParseProofs2 AstParseProofs3 SubstProofs SafeProofs SafeProofs2 SafeProofs3 SafeProofs4
  EngineProofs EngineProofs2 EngineProofs3 MakeProofs MakeProofs2 MakeProofs3 MakeProofs4 MakeProofs6.
Local Open Scope nat_scope.

(** * Lines that are not continued come in one piece *)
Lemma line_single : forall m (strip : bool) i r b, single i -> makefile_line i m strip = Ok (POk r b) ->
  (exists j p e, (if strip then preceded makefile_whitespace makefile_grab_line else makefile_grab_line) i = Ok (POk j (p, e)) /\
    wf_span p /\ continued fst (span_marks p) = false) -> single (block_span b).
Proof.
  intros m strip i r b S E (j & p & e & F & W & C). unfold makefile_line in E. cbn zeta in E. rewrite F in E. cbn [bind] in E.
  rewrite (ends_with_backslash_ok p W) in E. cbn [bind] in E.
  assert (Q : Nat.even (tail_backslashes mch (span_marks p)) = true). { rewrite even_odd. unfold continued in C. apply negb_true_iff. exact C. }
  rewrite Q in E. assert (Wp : within i p) by (destruct strip; [eapply within_next|eapply within_grab]; exact F).
  inv_bind E. inv_bind E. inversion E; subst.
  apply block_new_flat in Ex0; [|constructor; [exact (reference_piece p _ (within_single _ _ Wp S) Ex)|constructor]]. destruct Ex0 as (X & Y). split; [exact Y|exact X].
Qed.

Lemma plain_text : forall t l rest, plain_line t l rest -> line_text t l rest.
Proof.
  intros t l rest [t' last rest' N L|p h u N E C].
  - exact (LT_line t' [] last rest' N L).
  - pose proof (LT_hash p h u N E) as X. cbn zeta in X. rewrite C in X. exact X.
Qed.

Lemma plain_no_hash : forall t l rest, plain_line t l rest -> ~ has fst c_hash l.
Proof.
  intros t l rest [t' last rest' N L|p h u N E C]; apply lstrip_no; [|exact N].
  intros (a & I & E). apply N. exists a. split; [|exact E]. inversion L; subst; [exact I|]. apply in_or_app. now left.
Qed.

Lemma plain_single : forall i t l rest r b, at_text i t -> plain_line t l rest -> makefile_line i GNU true = Ok (POk r b) -> single (block_span b).
Proof.
  intros i t l rest r b (G & S & M) P E. apply (line_single GNU true i r b S E). cbn [negb].
  destruct P as [t last rest N L|p h u N Eh C].
  - rewrite <- M in N. remember ([] : list text) as ls eqn:El. destruct L as [l N' C|l n rest N' C E1|l N' C|l n t ls la re N' C E1 H]; try discriminate.
    + rewrite <- M in N', C. destruct (next_line_end i (proj1 G) N N') as (j & q & F & _ & Wq & Mq & _).
      exists j, q, LEEOF. split; [exact F|]. split; [exact Wq|]. rewrite Mq. etransitivity; [apply continued_lstrip|exact C].
    + destruct (next_line_break i l n rest (proj1 G) M N N' E1) as (j & q & F & _ & Wq & Mq & _).
      exists j, q, LELineBreak. split; [exact F|]. split; [exact Wq|]. rewrite Mq. etransitivity; [apply continued_lstrip|exact C].
  - destruct (next_line_hash i p h u (proj1 G) M N Eh) as (j & q & F & _ & Wq & Mq & _).
    exists j, q, LEComment. split; [exact F|]. split; [exact Wq|]. rewrite Mq. exact C.
Qed.

Lemma inner_line : forall s l u u', wf_span s -> single s -> span_marks s = l -> ~ has fst c_hash l -> logical_line fst l [] u u' ->
  exists r b, makefile_line s GNU false = Ok (POk r b) /\ wf_block b /\ tidy_block b /\ block_marks b = u.
Proof.
  intros s l u u' W S M N L. rewrite <- M in N, L. destruct (makefile_line_ok GNU false s [] u u' W N L) as (r & b & k & E & Wb & _ & _ & _ & Mb).
  exists r, b. split; [exact E|]. split; [exact Wb|]. split; [exact (proj1 (makefile_line_tidy _ _ _ _ _ W S E))|exact Mb].
Qed.

(** * Flat text stays flat *)
Lemma push_flat : forall b s b', flat_block b -> flat s -> push_all_contents b s = Ok b' -> flat_block b'.
Proof.
  intros b s b' B S E. unfold push_all_contents in E. destruct (sp_len s =? 0); [inversion E; subst; exact B|].
  inv_bind E. inversion E; subst. apply span_cover_leaf in Ex; [|exact S]. apply Forall_app. split; [exact B|apply Ex].
Qed.

Lemma simplify_flat : forall b b', flat_block b -> block_simplify b = Ok b' -> flat_block b'.
Proof. intros [sens cs] b' B E. apply (block_new_flat sens cs b'); [apply leaf_piece, B|exact E]. Qed.

Lemma unquote_loop_flat : forall i stop l boom tr sc last1 nps r, flat i -> flat_block tr -> unquote_loop i stop l boom tr sc last1 nps = Ok r ->
  flat_block (fst (fst (fst (fst r)))).
Proof.
  intros i stop. induction l as [|[idx ch] l IH]; intros boom tr sc last1 nps r F B E; cbn [unquote_loop] in E.
  - destruct boom; [discriminate|]. inversion E; subst. exact B.
  - destruct (stop ch); [|eapply IH; eassumption]. inv_bind E. destruct (Nat.odd (idx - last1)).
    + inv_bind E. inv_bind E. eapply IH; [exact F| |exact E]. eapply push_flat; [exact B| |exact Ex1]. eapply within_flat; [eapply within_range; exact Ex0|exact F].
    + inv_bind E. inv_bind E. inversion E; subst. cbn. eapply push_flat; [exact B| |exact Ex1]. eapply within_flat; [eapply within_range; exact Ex0|exact F].
Qed.

Lemma unquote_flat : forall i stop b r, flat i -> stop 0%N = false -> makefile_take_until_unquote i stop = Ok (b, r) -> flat_block b.
Proof.
  intros i stop b r F Z E. unfold makefile_take_until_unquote in E. destruct (span_indices i) as [l boom].
  apply bind_inv in E as ([[[[tr sc] last1] nps] found] & El & E). apply unquote_loop_flat in El; [|exact F|constructor]. cbn [fst] in El.
  rewrite Z in E. apply bind_inv in E as ([[tr' nps'] at_] & E1 & E).
  assert (tr' = tr) as -> by (destruct found; inversion E1; reflexivity).
  destruct (at_ <? sp_len i).
  - inv_bind E. inv_bind E. inv_bind E. inversion E; subst. eapply simplify_flat; eassumption.
  - destruct (at_ =? sp_len i).
    + inv_bind E. inv_bind E. inv_bind E. inversion E; subst. eapply simplify_flat; eassumption.
    + destruct sc.
      * inv_bind E. inv_bind E. inv_bind E. inversion E; subst. eapply simplify_flat; [|exact Ex1]. eapply push_flat; [exact El| |exact Ex0].
        eapply within_flat; [eapply within_from; exact Ex|exact F].
      * inv_bind E. inversion E; subst. eapply new_block_flat; eassumption.
Qed.

(** Text before the first stop is in the same pieces, if it has no backslashes. *)
Definition one_cover (i : span) (tr : block) : Prop := b_content tr = [] \/ exists s, wf_span s /\ within i s /\ span_cover s = Ok (b_content tr).

Lemma unquote_loop_first : forall i stop h tail k sens sc r, wf_span i -> k + List.length h <= sp_len i ->
  (forall a, In a h -> stop (fst a) = false /\ fst a <> c_bslash) -> match tail with [] => True | c :: _ => stop (fst c) = true end ->
  unquote_loop i stop (combine (seq k (List.length (h ++ tail))) (List.map fst (h ++ tail : text))) false (Blk sens []) sc k 0 = Ok r ->
  one_cover i (fst (fst (fst (fst r)))) /\ (tail = [] -> snd (fst (fst (fst r))) = sc /\ snd r = None) /\ (tail <> [] -> snd r = Some (k + List.length h)).
Proof.
  intros i stop. induction h as [|a h IH]; intros tail k sens sc r W L H T E.
  - cbn [app] in E. destruct tail as [|c tail]; cbn [List.length seq List.map combine unquote_loop] in E.
    + inversion E; subst. cbn. split; [left; reflexivity|]. split; [auto|congruence].
    + rewrite T in E. inv_bind E. rewrite Nat.sub_diag in E. cbn [Nat.odd Nat.even negb Nat.div Nat.divmod fst] in E. inv_bind E. inv_bind E. inversion E; subst. cbn [fst snd].
      split; [|split; [congruence|cbn; rewrite Nat.add_0_r; auto]]. unfold push_all_contents in Ex1. destruct (sp_len x0 =? 0); [inversion Ex1; left; reflexivity|].
      inv_bind Ex1. inversion Ex1; subst. right. exists x0. split; [|split; [eapply within_range; exact Ex0|exact Ex2]].
      change (k - fst (Nat.divmod 0 1 0 1)) with (k - 0) in Ex0. rewrite Nat.sub_0_r in Ex0.
      destruct (slice_range_sub i 0 k W) as (p & Ep & Sp); [lia|cbn in L; lia|]. rewrite Ep in Ex0. inversion Ex0; subst. exact (sub_wf _ _ _ _ Sp).
  - cbn [app List.length seq List.map combine unquote_loop] in E. destruct (H a (or_introl eq_refl)) as (Sa & Na). rewrite Sa in E.
    assert (Q : (fst a =? c_bslash)%N = false) by (apply N.eqb_neq; exact Na). rewrite Q in E. apply (IH tail (S k) sens sc r W) in E; auto.
    + cbn [List.length]. replace (k + S (List.length h)) with (S k + List.length h) by lia. exact E.
    + cbn in L. lia.
    + intros b I. apply H. now right.
Qed.

Lemma one_cover_parted : forall i tr tr', wf_span i -> parted cref_marks (sp_contents i) -> one_cover i tr -> block_simplify tr = Ok tr' -> parted cref_marks (b_content tr').
Proof.
  intros i [sens cs] tr' W P C E. unfold one_cover in C. cbn [b_content] in C. apply (block_new_parted sens cs tr'); [| |exact E].
  - destruct C as [->|(s & Ws & _ & Ec)]; [constructor|]. destruct (Nat.eq_dec (sp_len s) 0) as [Z|Z].
    + unfold span_cover in Ec. destruct (sp_contents s) as [|[o l n] cs0] eqn:Cs; [discriminate|]. inv_bind Ec. cbn [cover] in Ec. rewrite Z in Ec.
      destruct (l - sp_off s <? 0) eqn:Q; [apply Nat.ltb_lt in Q; lia|]. inversion Ec; subst. constructor; [right; reflexivity|constructor].
    + destruct (span_cover_ok s Ws ltac:(lia)) as (r & E1 & Wr & _). rewrite Ec in E1. inversion E1; subst. eapply Forall_impl; [|exact Wr]. exact wf_cref_w0.
  - destruct C as [->|(s & Ws & (pre & Es) & Ec)]; [apply parted_nil|]. eapply span_cover_parted; [|exact Ec]. rewrite Es in P. exact (parted_suffix _ _ _ P).
Qed.

Lemma unquote_parted : forall i stop h tail b r, wf_span i -> parted cref_marks (sp_contents i) -> stop 0%N = false -> span_marks i = h ++ tail ->
  (forall a, In a h -> stop (fst a) = false /\ fst a <> c_bslash) -> match tail with [] => True | c :: _ => stop (fst c) = true end ->
  makefile_take_until_unquote i stop = Ok (b, r) -> parted cref_marks (b_content b).
Proof.
  intros i stop h tail b r W P Z M H T E. unfold makefile_take_until_unquote in E. rewrite (indices_marks i W), M in E.
  apply bind_inv in E as ([[[[tr sc] last1] nps] found] & El & E).
  assert (Ln : 0 + List.length h <= sp_len i) by (rewrite <- (span_marks_len i W), M, app_length; lia).
  apply (unquote_loop_first i stop h tail 0 _ None _ W Ln H T) in El. cbn [fst snd] in El. destruct El as (C & N1 & N2).
  rewrite Z in E. apply bind_inv in E as ([[tr' nps'] at_] & E1 & E).
  assert (tr' = tr) as -> by (destruct found; inversion E1; reflexivity).
  destruct (at_ <? sp_len i) eqn:A1.
  - inv_bind E. inv_bind E. inv_bind E. inversion E; subst. eapply one_cover_parted; eassumption.
  - destruct (at_ =? sp_len i) eqn:A2.
    + inv_bind E. inv_bind E. inv_bind E. inversion E; subst. eapply one_cover_parted; eassumption.
    + destruct sc as [c|].
      * exfalso. destruct tail as [|c0 tail]; [destruct (N1 eq_refl); discriminate|]. rewrite (N2 ltac:(discriminate)) in E1.
        inversion E1; subst. apply Nat.ltb_ge in A1. rewrite <- (span_marks_len i W), M, app_length in A1. cbn in A1. lia.
      * inv_bind E. inversion E; subst. eapply new_block_parted; eassumption.
Qed.

(** * Expanding a piece of text *)
Lemma segment_ok : forall fs D w s m, ascii_files fs -> world_good w -> env_rep D (world_env w) -> wf_span s -> tidy s ->
  stands_for D (span_marks s) m ->
  exists w' b enough, (forall fuel B (k : world -> block -> res (world * presult B)), enough <= fuel ->
      expand_segment (eval_fuel fs fuel) w s k = k w' b) /\
    block_marks b = m /\ wf_block b /\ same_but_names w w' /\ world_good w' /\ env_rep D (world_env w') /\ depends_on w' (looks_up D (span_marks s)) b.
Proof.
  intros fs D w s m FS G R W F S. destruct (text_evaluates fs D w s m (proj1 G) R W F S) as (r & a & P & _ & _ & A & w' & b & en & E & M & _ & SB & _ & DO).
  exists w', b, en. split; [|split; [exact M|split; [|split; [exact SB|split; [|split; [|exact DO]]]]]].
  - intros fuel B k L. unfold expand_segment, wbind. rewrite P. cbn [bind]. rewrite (E fuel L). reflexivity.
  - pose proof (proj1 (engine_safe fs FS en) w a G A) as X. rewrite (E en (le_n _)) in X. apply X.
  - exact (sbn_good _ _ SB G).
  - eapply env_rep_ext; [exact R|]. apply sbn_env; [exact SB|exact (proj1 G)].
Qed.

(** * Colons and semicolons in expanded words *)
Lemma free_has : forall c cs (t : text), free cs t -> In c cs -> ~ has fst c t.
Proof. intros c cs t F I (a & Ia & E). apply (F a Ia). change (fst a = c) in E. rewrite E. exact I. Qed.

Lemma unquote_free : forall (stop : char -> bool) (t : text), ~ has fst c_bslash t -> (forall a, In a t -> stop (fst a) = false) ->
  unquote fst stop [] t = (t, Ended []).
Proof.
  intros stop t H N. destruct (unquote_no_backslash fst stop t H) as [(o & c & rest & _ & E & S & _)|(U & _)]; [|exact U].
  rewrite (N c) in S; [discriminate|]. rewrite E. apply in_or_app. right. now left.
Qed.

Lemma unquote_first : forall (stop : char -> bool) (t : text) c rest, ~ has fst c_bslash t -> (forall a, In a t -> stop (fst a) = false) ->
  stop (fst c) = true -> fst c <> c_bslash -> unquote fst stop [] (t ++ c :: rest) = (t, Stopped c rest).
Proof.
  intros stop t c rest H N S B. apply N.eqb_neq in B. induction t as [|a t IH].
  - cbn [app unquote]. change (backslash (fst c)) with (fst c =? c_bslash)%N. rewrite B, S. reflexivity.
  - cbn [app unquote]. destruct (backslash (fst a)) eqn:Q.
    { exfalso. apply H. exists a. split; [now left|]. apply N.eqb_eq. exact Q. }
    rewrite (N a (or_introl eq_refl)), IH.
    + reflexivity.
    + intros (x & I & E). apply H. exists x. split; [now right|exact E].
    + intros x I. apply N. now right.
Qed.

Lemma colon_none : forall b, wf_block b -> free [colon; c_bslash] (block_marks b) ->
  exists b', find_non_drivespec_colon (block_span b) = Ok (b', None) /\ wf_block b' /\ block_marks b' = block_marks b.
Proof.
  intros b W F. unfold find_non_drivespec_colon. cbn [drivespec_loop].
  destruct (take_until_unquote_ok (block_span b) is_colon (block_span_wf b W) eq_refl eq_refl) as (p & r & E & Wp & Post).
  rewrite (block_span_marks b W) in Post.
  pose proof (unquote_free is_colon (block_marks b)) as U. change mch with (@fst char location) in Post. rewrite U in Post.
  - destruct Post as (Mp & ->). rewrite app_nil_r in Mp. rewrite E. cbn [bind].
    destruct (push_all_contents_ok block_empty (block_span p) block_empty_wf (block_span_wf p Wp) Wp) as (c & Ec & Wc & Mc & _).
    rewrite Ec. cbn [bind]. exists c. split; [reflexivity|]. split; [exact Wc|]. rewrite Mc, (block_span_marks p Wp), Mp. reflexivity.
  - eapply free_has; [exact F|]. cbn; tauto.
  - intros a I. apply N.eqb_neq. intros Q. apply (F a I). rewrite Q. now left.
Qed.

Lemma colon_some : forall b m c cs, wf_block b -> block_marks b = m ++ c :: cs -> free [colon; c_bslash] m -> fst c = colon -> ~ has fst c_bslash cs ->
  (m = [] \/ cs = []) ->
  exists b' post, find_non_drivespec_colon (block_span b) = Ok (b', Some post) /\ wf_block b' /\ block_marks b' = m /\
    wf_span post /\ wf_block (sp_parent post) /\ span_marks post = cs.
Proof.
  intros b m c cs W M F C N O. unfold find_non_drivespec_colon. cbn [drivespec_loop].
  destruct (take_until_unquote_ok (block_span b) is_colon (block_span_wf b W) eq_refl eq_refl) as (p & r & E & Wp & Post).
  rewrite (block_span_marks b W), M in Post. change mch with (@fst char location) in Post. rewrite (unquote_first is_colon m c cs) in Post.
  - destruct Post as (Mp & sc & post & k & -> & Wsc & Msc & Mpost & Sub & _). rewrite E. cbn [bind].
    destruct (push_all_contents_ok block_empty (block_span p) block_empty_wf (block_span_wf p Wp) Wp) as (d & Ec & Wc & Mc & _).
    rewrite Ec. cbn [bind]. rewrite (is_drivespec_ok p post Wp (sub_wf _ _ _ _ Sub)), Mp, Mpost.
    assert (drive_swapped mch m cs = false) as ->.
    { destruct O as [-> | ->]; [destruct cs|]; reflexivity. }
    cbn [bind]. exists d, post. split; [reflexivity|]. split; [exact Wc|]. split; [rewrite Mc, (block_span_marks p Wp), Mp; reflexivity|].
    split; [exact (sub_wf _ _ _ _ Sub)|]. split; [|exact Mpost]. rewrite (proj1 (proj2 (proj2 (proj2 (proj2 Sub))))). exact W.
  - eapply free_has; [exact F|]. cbn; tauto.
  - intros a I. apply N.eqb_neq. intros Q. apply (F a I). rewrite Q. now left.
  - rewrite C. reflexivity.
  - rewrite C. discriminate.
Qed.

(** * Lists of words *)
Lemma split_at_app : forall (stop : char -> bool) (a : text) w c b, stop (fst c) = true ->
  split_at fst stop w (a ++ c :: b) = split_at fst stop w a ++ split_at fst stop [] b.
Proof.
  intros stop a. induction a as [|x a IH]; intros w c b S; cbn [app split_at].
  - rewrite S. unfold word_and. destruct w; reflexivity.
  - destruct (stop (fst x)); [|apply IH; exact S]. rewrite IH by exact S. unfold word_and. destruct w; reflexivity.
Qed.

Lemma push_word_ok : forall buf b, wf_block buf -> wf_block b -> exists b', push_word buf b = Ok b' /\ wf_block b' /\
  names_in (block_marks b') = names_in (block_marks buf) ++ names_in (block_marks b) /\
  (forall c, c <> c_space -> ~ has fst c (block_marks buf) -> ~ has fst c (block_marks b) -> ~ has fst c (block_marks b')).
Proof.
  intros buf b Wf W. unfold push_word.
  set (buf' := if 0 <? block_len buf then block_push buf cr_space else buf).
  assert (Q : wf_block buf' /\ (forall u, names_in (block_marks buf' ++ u) = names_in (block_marks buf) ++ names_in u) /\
    (forall c, c <> c_space -> ~ has fst c (block_marks buf) -> ~ has fst c (block_marks buf'))).
  { unfold buf'. destruct (0 <? block_len buf) eqn:L.
    - assert (M : block_marks (block_push buf cr_space) = block_marks buf ++ [space_mark]).
      { destruct buf as [se cs]. unfold block_push. cbn [b_content b_sens]. change (crefs_marks (cs ++ [cr_space]) = crefs_marks cs ++ [space_mark]). rewrite crefs_marks_app. reflexivity. }
      split; [apply Forall_app; split; [exact Wf|constructor; [exact space_wf|constructor]]|]. rewrite M. split.
      + intros u. rewrite <- app_assoc. cbn [app]. apply split_at_app. reflexivity.
      + intros c Nc H (a & I & E). apply in_app_or in I as [I|[<-|[]]]; [apply H; exists a; auto|]. apply Nc. rewrite <- E. reflexivity.
    - apply Nat.ltb_ge in L. assert (block_marks buf = []) as ->.
      { apply length_zero_iff_nil. rewrite <- (block_len_marks buf Wf). lia. }
      split; [exact Wf|]. split; [reflexivity|auto]. }
  destruct Q as (W' & N & H). destruct (push_all_contents_ok buf' (block_span b) W' (block_span_wf b W) W) as (b' & E & Wb & M & _).
  exists b'. split; [exact E|]. split; [exact Wb|]. rewrite M, (block_span_marks b W). split; [apply N|].
  intros c Nc H1 H2 (a & I & Ea). apply in_app_or in I as [I|I]; [apply (H c Nc H1)|apply H2]; exists a; auto.
Qed.

Lemma stands_snoc : forall D w m c, stands_for D w m -> word_text w -> fst c <> dollar -> stands_for D (w ++ [c]) (m ++ [c]).
Proof.
  intros D w m c S. induction S as [|x t m N S IH|x E|x y t m X Y S IH|x y t m1 m2 X N V S IH|x b t inner rest nm m1 m2 X B G NF S0 _ P V S IH|x b t inner rest n k r m X B G NF Nd U Is Dn S IH|x b t inner rest n k r v ps m1 m2 X B G NF Nd U Is Dn Vi Sb S IH]; intros WT Nc; cbn [app].
  - apply SF_plain; [exact Nc|constructor].
  - apply SF_plain; [exact N|]. apply IH; [|exact Nc]. inversion WT; subst; congruence || assumption.
  - inversion WT; subst. exfalso. match goal with H : ~ In _ _ |- _ => apply H; rewrite E; cbn; tauto end.
  - apply SF_dollar; [exact X|exact Y|]. apply IH; [|exact Nc]. inversion WT; subst.
    + exfalso. match goal with H : ~ In (fst x) _ |- _ => apply H; rewrite X; cbn; tauto end.
    + assumption.
    + match goal with H : fst y = open_paren |- _ => rewrite Y in H; discriminate end.
  - rewrite <- app_assoc. apply SF_char; [exact X|exact N|exact V|]. apply IH; [|exact Nc]. inversion WT; subst.
    + exfalso. match goal with H : ~ In (fst x) _ |- _ => apply H; rewrite X; cbn; tauto end.
    + assumption.
    + exfalso. apply N. match goal with H : fst y = open_paren |- _ => rewrite H end. cbn; tauto.
  - rewrite <- app_assoc. eapply SF_var; [exact X|exact B| |exact NF|exact S0|exact P|exact V|].
    + destruct G as (O & A & y & Ey & ->). split; [exact O|]. split; [exact A|]. exists y. split; [exact Ey|]. rewrite <- app_assoc. reflexivity.
    + apply IH; [|exact Nc]. inversion WT; subst.
      * exfalso. match goal with H : ~ In (fst x) _ |- _ => apply H; rewrite X; cbn; tauto end.
      * exfalso. match goal with H : ~ In (fst b) _ |- _ => apply H; rewrite B; cbn; tauto end.
      * match goal with H : group _ _ t ?i ?r, W : word_text ?r |- _ => destruct (group_unique open_paren close_paren t _ _ _ _ ltac:(discriminate) G H) as (_ & ->); exact W end.
  - eapply SF_subst_none; [exact X|exact B| |exact NF|exact Nd|exact U|exact Is|exact Dn|].
    + destruct G as (O & A & y & Ey & ->). split; [exact O|]. split; [exact A|]. exists y. split; [exact Ey|]. rewrite <- app_assoc. reflexivity.
    + apply IH; [|exact Nc]. inversion WT; subst.
      * exfalso. match goal with H : ~ In (fst x) _ |- _ => apply H; rewrite X; cbn; tauto end.
      * exfalso. match goal with H : ~ In (fst b) _ |- _ => apply H; rewrite B; cbn; tauto end.
      * match goal with H : group _ _ t ?i ?r, W : word_text ?r |- _ => destruct (group_unique open_paren close_paren t _ _ _ _ ltac:(discriminate) G H) as (_ & ->); exact W end.
  - rewrite <- app_assoc. eapply SF_subst; [exact X|exact B| |exact NF|exact Nd|exact U|exact Is|exact Dn|exact Vi|exact Sb|].
    + destruct G as (O & A & y & Ey & ->). split; [exact O|]. split; [exact A|]. exists y. split; [exact Ey|]. rewrite <- app_assoc. reflexivity.
    + apply IH; [|exact Nc]. inversion WT; subst.
      * exfalso. match goal with H : ~ In (fst x) _ |- _ => apply H; rewrite X; cbn; tauto end.
      * exfalso. match goal with H : ~ In (fst b) _ |- _ => apply H; rewrite B; cbn; tauto end.
      * match goal with H : group _ _ t ?i ?r, W : word_text ?r |- _ => destruct (group_unique open_paren close_paren t _ _ _ _ ltac:(discriminate) G H) as (_ & ->); exact W end.
Qed.

(** * The words before the colon *)
Lemma lstrip_blank : forall (b : placed) (t : text), blank (fst b) = true -> lstrip fst (b :: t) = lstrip fst t.
Proof. intros b t B. unfold lstrip. cbn [drop_while]. rewrite B. reflexivity. Qed.

Lemma free_sub : forall cs (t u : text), free cs t -> incl u t -> free cs u.
Proof. intros cs t u F I a Ia. apply F, I, Ia. Qed.

Lemma targets_first : forall D t ms after, targets_before D t ms after -> ~ begins_char colon t -> exists w e tail, t = w ++ e :: tail /\ w <> [] /\ word_text w /\
  (blank (fst e) = true \/ fst e = colon).
Proof.
  intros D t ms after T N. destruct T as [w c m after WT S NT C|w b t m ms after WT Nw S NT Nm B T].
  - exists w, c, after. split; [reflexivity|]. split; [|auto]. intros ->. apply N. exists c, after. auto.
  - exists w, b, t. auto.
Qed.

Lemma consumed : forall line r (u v : text), wf_span r -> wf_span line -> lstrip fst (span_marks line) = u ++ v -> u <> [] ->
  List.length (span_marks r) <= List.length v -> sp_len r < sp_len line.
Proof.
  intros line r u v Wr W L N H. rewrite <- (span_marks_len r Wr), <- (span_marks_len line W). destruct (lstrip_suffix fst (span_marks line)) as (pre & El & _).
  rewrite El, app_length, L, app_length. destruct u; [congruence|]. cbn [List.length]. lia.
Qed.

Section Loop.
  Context (fs : str -> file) (D : defs) (FS : ascii_files fs).

  (** One round: what the loop does once the word is expanded. *)
  Definition round (ev : world -> ast -> res (world * block)) n post_semi pre (w : world) (line_next : span) (nc : block) : res (world * presult target_split) :=
    if block_len nc =? 0 then wret w (POk line_next TsConsumed)
    else
      let* '(content, co) := find_non_drivespec_colon (block_span nc) in
      match co with
      | Some post =>
          let* after_colon := to_new_block post in
          let* pre_colon := push_word pre content in
          wret w (POk line_next (TsLine pre_colon (Some after_colon) line_next post_semi false))
      | None =>
          wbind w (next_mword line_next) (fun line_next out =>
          let '(mw, mwt) := out in
          match mwt with
          | MwEOL => wret w (POk line_next (TsLine pre None line_next post_semi true))
          | _ =>
              let* pre_colon := push_word pre content in
              target_loop ev n w line_next mw post_semi pre_colon
          end)
      end.

  Lemma round_ok : forall w s m, world_good w -> env_rep D (world_env w) -> wf_span s -> tidy s -> stands_for D (span_marks s) m ->
    free [semicolon; c_bslash] m ->
    exists w' nc enough, (forall fuel n line_next post_semi pre, enough <= fuel ->
        target_loop (eval_fuel fs fuel) (S n) w line_next s post_semi pre = round (eval_fuel fs fuel) n post_semi pre w' line_next nc) /\
      block_marks nc = m /\ wf_block nc /\ same_but_names w w' /\ world_good w' /\ env_rep D (world_env w').
  Proof.
    intros w s m G R W F S N. destruct (segment_ok fs D w s m FS G R W F S) as (w' & nc & en & E & M & Wn & SB & G' & R' & _).
    exists w', nc, en. split; [|auto]. intros fuel n line_next post_semi pre L. cbn [target_loop]. rewrite E by exact L. cbn zeta.
    destruct post_semi as [ps|]; [reflexivity|].
    destruct (take_until_unquote_ok (block_span nc) is_semi (block_span_wf nc Wn) eq_refl eq_refl) as (p & r & Eu & _ & Post).
    rewrite (block_span_marks nc Wn), M in Post. change mch with (@fst char location) in Post. rewrite (unquote_free is_semi m) in Post.
    - destruct Post as (_ & ->). rewrite Eu. reflexivity.
    - eapply free_has; [exact N|]. cbn; tauto.
    - intros a I. apply N.eqb_neq. intros Q. apply (N a I). rewrite Q. now left.
  Qed.

  (** The last word. *)
  Lemma last_word : forall w line cap rr w0 m c cs n post_semi buf,
    world_good w -> env_rep D (world_env w) -> wf_block buf -> ~ has fst c_bslash (block_marks buf) ->
    tidy line -> moves line cap w0 -> keeps line rr -> stands_for D w0 (m ++ c :: cs) -> name_text m -> fst c = colon -> (forall a, In a cs -> fst a = colon) ->
    (m = [] \/ cs = []) ->
    exists w' buf' ac enough, (forall fuel, enough <= fuel -> target_loop (eval_fuel fs fuel) (S n) w rr cap post_semi buf =
        Ok (w', POk rr (TsLine buf' (Some ac) rr post_semi false))) /\
      same_but_names w w' /\ wf_block buf' /\ ~ has fst c_bslash (block_marks buf') /\
      names_in (block_marks buf') = names_in (block_marks buf) ++ names_in m /\ wf_block ac /\ block_marks ac = cs.
  Proof.
    intros w line cap rr w0 m c cs n post_semi buf G R Wb Nb F (Kc & Mc) Kr S N C Ccs O.
    assert (Nc : ~ has fst c_bslash cs). { intros (a & I & Q). change (fst a = c_bslash) in Q. rewrite (Ccs a I) in Q. discriminate. }
    rewrite <- Mc in S. destruct (round_ok w cap _ G R (proj1 Kc) (proj1 (proj2 (proj2 Kc)) F) S) as (w' & nc & en & E & M & Wn & SB & G' & R').
    { intros a I J. apply in_app_or in I as [I|[<-|I]].
      - apply (N a I). cbn in J |- *. tauto.
      - rewrite C in J. cbn in J. intuition discriminate.
      - rewrite (Ccs a I) in J. cbn in J. intuition discriminate. }
    destruct (colon_some nc m c cs Wn M) as (b' & post & Ec & Wb' & Mb' & Wp & Wpp & Mp); auto.
    { intros a I J. apply (N a I). cbn in J |- *. tauto. }
    destruct (to_new_block_ok post Wp) as (ac & Ea & Wa & Ma & _).
    destruct (push_word_ok buf b' Wb Wb') as (buf' & Ep & Wbuf & Nbuf & Hbuf).
    exists w', buf', ac, en. split; [|split; [exact SB|split; [exact Wbuf|split; [|split; [|split; [exact Wa|congruence]]]]]].
    - intros fuel L. rewrite E by exact L. unfold round. rewrite (block_len_marks nc Wn), M, app_length. cbn [List.length].
      destruct (List.length m + Datatypes.S (List.length cs) =? 0) eqn:Z; [apply Nat.eqb_eq in Z; lia|].
      rewrite Ec. cbn [bind]. rewrite Ea. cbn [bind]. rewrite Ep. reflexivity.
    - apply Hbuf; [discriminate|exact Nb|]. rewrite Mb'. eapply free_has; [exact N|]. cbn; tauto.
    - rewrite Nbuf, Mb'. reflexivity.
  Qed.

  Definition after_ok (after : text) : Prop := forall double deps, after_colons after double deps -> ~ begins_char equals deps.

  Lemma loop_ok : forall t ms after, targets_before D t ms after -> free [semicolon; c_bslash] t -> after_ok after ->
    forall w line post_semi buf, world_good w -> env_rep D (world_env w) -> wf_span line -> tidy line -> lstrip fst (span_marks line) = t ->
      wf_block buf -> ~ has fst c_bslash (block_marks buf) ->
    exists r cap reason, next_mword line = Ok (POk r (cap, reason)) /\ (~ begins_char colon t -> ~ In reason [MwColon; MwDColon]) /\ reason <> MwEOL /\ sp_len r < sp_len line /\
    forall n, sp_len r < n -> exists w' r' buf' ac enough,
      (forall fuel, enough <= fuel -> target_loop (eval_fuel fs fuel) n w r cap post_semi buf = Ok (w', POk r' (TsLine buf' (Some ac) r' post_semi false))) /\
      same_but_names w w' /\ wf_block buf' /\ ~ has fst c_bslash (block_marks buf') /\
      names_in (block_marks buf') = names_in (block_marks buf) ++ concat (List.map names_in ms) /\
      wf_block ac /\ (block_marks ac = [] \/ exists c, block_marks ac = [c] /\ fst c = colon) /\ keeps line r' /\ block_marks ac ++ span_marks r' = after.
  Proof.
    intros t ms after T. induction T as [w0 c m after WT S NT C|w0 b t m ms after WT Nw S NT Nm B T IH];
      intros FR AO w line post_semi buf G R W F L Wb Nb.
    - destruct w0 as [|x w0].
      + cbn [app] in L. inversion S; subst. destruct (mword_colon line c after W L C AO) as (r & cap & reason & E & I & cs & Mcap & Mr & Ecs & Cs).
        assert (Ccs : forall a, In a cs -> fst a = colon). { intros a Ia. destruct Cs as [-> | (c' & -> & Hc)]; [contradiction|]. destruct Ia as [<-|[]]. exact Hc. }
        assert (SS : stands_for D (c :: cs) ([] ++ c :: cs)).
        { cbn [app]. apply SF_plain; [rewrite C; discriminate|]. destruct Cs as [-> | (c' & -> & Hc)]; [constructor|]. apply SF_plain; [rewrite Hc; discriminate|constructor]. }
        exists r, cap, reason. split; [exact E|]. split; [|split; [|split]].
        { intros H. exfalso. apply H. exists c, after. auto. }
        { cbn in I. destruct I as [<-|[<-|[]]]; discriminate. }
        { apply (consumed line r [c] after (proj1 (proj1 Mr)) W L ltac:(discriminate)). rewrite (proj2 Mr), skipn_length. lia. }
        intros n Ln. destruct n as [|n]; [lia|].
        destruct (last_word w line cap r (c :: cs) [] c cs n post_semi buf G R Wb Nb F Mcap (proj1 Mr) SS NT C Ccs (or_introl eq_refl))
          as (w' & buf' & ac & en & El & SB & Wbuf & Nbuf & Names & Wa & Ma).
        exists w', r, buf', ac, en.
        split; [exact El|]. split; [exact SB|]. split; [exact Wbuf|]. split; [exact Nbuf|]. split; [exact Names|]. split; [exact Wa|].
        split; [rewrite Ma; destruct Cs as [-> | (c' & -> & Hc)]; [now left|right; exists c'; auto]|]. split; [exact (proj1 Mr)|].
        rewrite Ma, (proj2 Mr), Ecs at 1. apply firstn_skipn.
      + assert (WE : word_end c after). { right. split; [exact C|]. intros (a & u & Ea & Ha). apply (FR a); [|rewrite Ha; cbn; tauto]. rewrite Ea. apply in_or_app. right. right. now left. }
        assert (FRw : free [semicolon; c_bslash] (x :: w0)). { eapply free_sub; [exact FR|]. intros a Ia. apply in_or_app. now left. }
        destruct (mword_word line (x :: w0) c after W L WT FRw ltac:(discriminate) WE) as (r & cap & reason & E & I & Mcap & Mr).
        rewrite C in Mcap, Mr. cbn [N.eqb Pos.eqb] in Mcap, Mr.
        assert (SS : stands_for D ((x :: w0) ++ [c]) (m ++ c :: [])). { apply stands_snoc; [exact S|exact WT|rewrite C; discriminate]. }
        exists r, cap, reason. split; [exact E|]. split; [|split; [|split]].
        { intros _ J. cbn in I, J. intuition (subst; discriminate). }
        { cbn in I. destruct I as [<-|[<-|[]]]; discriminate. }
        { apply (consumed line r (x :: w0) (c :: after) (proj1 (proj1 Mr)) W L ltac:(discriminate)). rewrite (proj2 Mr). cbn. lia. }
        intros n Ln. destruct n as [|n]; [lia|].
        destruct (last_word w line cap r _ m c [] n post_semi buf G R Wb Nb F Mcap (proj1 Mr) SS NT C ltac:(intros a []) (or_intror eq_refl))
          as (w' & buf' & ac & en & El & SB & Wbuf & Nbuf & Names & Wa & Ma).
        exists w', r, buf', ac, en.
        split; [exact El|]. split; [exact SB|]. split; [exact Wbuf|]. split; [exact Nbuf|].
        split; [rewrite Names; cbn [List.map concat]; rewrite app_nil_r; reflexivity|]. split; [exact Wa|].
        split; [now left|]. split; [exact (proj1 Mr)|]. rewrite Ma. exact (proj2 Mr).
    - assert (FRw : free [semicolon; c_bslash] w0). { eapply free_sub; [exact FR|]. intros a Ia. apply in_or_app. now left. }
      destruct (mword_word line w0 b t W L WT FRw Nw (or_introl B)) as (r & cap & reason & E & I & Mcap & Mr).
      assert (Cb : (fst b =? colon)%N = false). { apply N.eqb_neq. intros Q. rewrite Q in B. discriminate. }
      rewrite Cb in Mcap, Mr. destruct Mcap as (Kc & Mc). destruct Mr as (Kr & Mr). rewrite <- Mc in S.
      destruct (round_ok w cap m G R (proj1 Kc) (proj1 (proj2 (proj2 Kc)) F) S) as (w1 & nc & e1 & E1 & M1 & Wn & SB1 & G1 & R1).
      { eapply free_sub with (t := m); [|apply incl_refl]. intros a Ia J. apply (NT a Ia). cbn in J |- *. tauto. }
      destruct (colon_none nc Wn) as (b' & Ec & Wb' & Mb').
      { rewrite M1. intros a Ia J. apply (NT a Ia). cbn in J |- *. tauto. }
      destruct (push_word_ok buf b' Wb Wb') as (buf1 & Ep & Wbuf1 & Nbuf1 & Hbuf1).
      assert (Nb1 : ~ has fst c_bslash (block_marks buf1)).
      { apply Hbuf1; [discriminate|exact Nb|]. rewrite Mb', M1. eapply free_has; [exact NT|]. cbn; tauto. }
      assert (Lr : sp_len r < sp_len line).
      { apply (consumed line r w0 (b :: t) (proj1 Kr) W L Nw). rewrite Mr. lia. }
      assert (FR' : free [semicolon; c_bslash] (lstrip fst t)).
      { eapply free_sub; [exact FR|]. destruct (lstrip_suffix fst t) as (pre & El & _). intros a Ia. apply in_or_app. right. right. rewrite El. apply in_or_app. now right. }
      destruct (IH FR' AO w1 r post_semi buf1 G1 R1 (proj1 Kr) (proj1 (proj2 (proj2 Kr)) F)) as (r2 & cap2 & re2 & E2 & _ & NE & L2 & IHn).
      { rewrite Mr. apply lstrip_blank. exact B. }
      { exact Wbuf1. } { exact Nb1. }
      exists r, cap, reason. split; [exact E|].
      split; [intros _ J; cbn in I, J; intuition (subst; discriminate)|]. split; [cbn in I; destruct I as [<-|[<-|[]]]; discriminate|].
      split; [exact Lr|]. intros n Ln. destruct n as [|n]; [lia|].
      destruct (IHn n ltac:(lia)) as (w' & r' & buf' & ac & e2 & El & SB & Wbuf & Nbuf & Names & Wa & Ma & Kr' & Mr').
      exists w', r', buf', ac, (Nat.max e1 e2).
      split; [|split; [exact (sbn_trans _ _ _ SB1 SB)|split; [exact Wbuf|split; [exact Nbuf|split; [|split; [exact Wa|split; [exact Ma|split; [exact (keeps_trans _ _ _ Kr Kr')|exact Mr']]]]]]]].
      + intros fuel Lf. rewrite E1 by lia. unfold round. rewrite (block_len_marks nc Wn), M1.
        destruct (List.length m =? 0) eqn:Z; [apply Nat.eqb_eq, length_zero_iff_nil in Z; congruence|].
        rewrite Ec. cbn [bind]. unfold wbind at 1. rewrite E2. cbn [bind]. rewrite Ep. cbn [bind]. destruct re2; try congruence; apply El; lia.
      + rewrite Names, Nbuf1, Mb', M1. cbn [List.map concat]. rewrite <- app_assoc. reflexivity.
  Qed.
End Loop.
