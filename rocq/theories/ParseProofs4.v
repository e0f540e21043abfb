(** Lemmas about comments and file lists. *)
From Verif Require Import Base LocModel EvdModel NomModel AstModel ParseModel EvdSpec EvdProofs EvdProofs2 EvdProofs3
  ParseSpec ParseProofs ParseProofs2 ParseProofs3.

(** * Comments *)

Lemma opt_hash_ok : forall s h t, wf_span s -> span_marks s = h :: t -> fst h = c_hash ->
  exists r, popt (pchar c_hash) s = Ok (POk r (Some c_hash)) /\ wf_span r /\ span_marks r = t /\ sp_len r = length t.
Proof.
  intros s h t W M E. pose proof (pchar_ok s c_hash W ascii_hash) as P. rewrite span_text_marks, M in P. cbn [List.map] in P.
  rewrite E, N.eqb_refl in P. destruct P as (r & P & R & L). unfold popt. rewrite P. cbn [bind]. exists r. ands; eauto using sub_wf.
  - rewrite (sub_end _ _ _ W R), M. reflexivity.
  - destruct R as (_ & _ & R & _). rewrite R, <- (span_marks_len s W), M. cbn. lia.
Qed.

Lemma opt_hash_no : forall s, wf_span s -> ~ has mch c_hash (span_marks s) ->
  popt (pchar c_hash) s = Ok (POk s None).
Proof.
  intros s W H. pose proof (pchar_ok s c_hash W ascii_hash) as P. rewrite span_text_marks in P.
  unfold popt. destruct (span_marks s) as [|h t] eqn:M; cbn [List.map] in P.
  - rewrite P. reflexivity.
  - destruct (fst h =? c_hash)%N eqn:Q.
    + apply N.eqb_eq in Q. exfalso. apply H. exists h. split; [left|]; auto.
    + rewrite P. reflexivity.
Qed.

(** Grabbing a line of text without '#'. *)
Lemma grab_no_hash : forall s ls last rest, wf_span s -> ~ has mch c_hash (span_marks s) ->
  logical_line mch (span_marks s) ls last rest ->
  exists r p reason, makefile_grab_line s = Ok (POk r (p, reason)) /\ wf_span r /\ wf_span p /\ reason <> LEComment /\
    ~ has mch c_hash (span_marks r) /\
    ((ls = [] /\ continued mch (span_marks p) = false /\ span_marks r = rest) \/
     (exists l ls', ls = l :: ls' /\ continued mch (span_marks p) = true /\ logical_line mch (span_marks r) ls' last rest /\
        sp_len r < sp_len s)).
Proof.
  intros s ls last rest W H L. assert (Ln := span_marks_len s W). inversion L; subst.
  - destruct (grab_end s W H H0) as (r & E & Wr & Mr & R). exists r, s, LEEOF. ands; auto; try discriminate.
    + rewrite Mr. apply no_has_nil.
  - rewrite <- H0 in H. destruct (grab_break s last n rest) as (r & p & E & Wr & Wp & Mp & Mr & R); auto.
    { rewrite <- H0. exact H. }
    exists r, p, LELineBreak. rewrite Mp, Mr. ands; auto; try discriminate. intros X. apply H. apply has_app. right. apply has_cons. auto.
  - destruct (grab_end s W H H0) as (r & E & Wr & Mr & R). exists r, s, LEEOF. ands; auto; try discriminate.
    + rewrite Mr. apply no_has_nil.
    + right. exists (span_marks s), []. ands; auto.
      * rewrite Mr. apply (LL_end mch []); [apply no_has_nil|reflexivity].
      * destruct R as (_ & _ & R & _). rewrite R. rewrite <- Ln. destruct (span_marks s); [discriminate|cbn; lia].
  - rewrite <- H0 in H. destruct (grab_break s l n t) as (r & p & E & Wr & Wp & Mp & Mr & R); auto.
    { rewrite <- H0. exact H. }
    exists r, p, LELineBreak. rewrite Mp, Mr. ands; auto; try discriminate.
    + intros X. apply H. apply has_app. right. apply has_cons. auto.
    + right. exists l, ls0. ands; auto. destruct R as (_ & R1 & R & _). rewrite R. lia.
Qed.

Lemma comment_loop_plain : forall ls fuel i line reason last rest, wf_span i -> wf_span line -> ~ has mch c_hash (span_marks i) ->
  reason <> LEComment -> continued mch (span_marks line) = true ->
  logical_line mch (span_marks i) ls last rest -> length ls + 2 <= fuel ->
  exists r, comment_loop fuel i line reason = Ok (POk r tt) /\ wf_span r /\ span_marks r = rest.
Proof.
  induction ls as [|l ls IH]; intros fuel i line reason last rest W Wl H R C L F.
  - destruct fuel as [|[|fuel]]; try (cbn in F; lia). cbn [comment_loop].
    assert (G : match reason with LEComment => Ok true | _ => let* n := ends_with_backslash line in Ok (Nat.odd n) end = Ok true).
    { destruct reason; auto; rewrite (ends_with_backslash_ok line Wl); cbn [bind]; f_equal; exact C. }
    rewrite G. cbn [bind]. unfold preceded. rewrite (opt_hash_no i W H). cbn [pbind bind].
    destruct (grab_no_hash i [] last rest W H L) as (r & p & rs & E & Wr & Wp & Nr & Hr & [(_ & Cp & Mr)|(? & ? & X & _)]); [|discriminate].
    rewrite E. cbn [pbind bind fst snd]. exists r. ands; auto.
    destruct rs; [congruence| |]; rewrite (ends_with_backslash_ok p Wp); cbn [bind];
      change (Nat.odd (tail_backslashes mch (span_marks p))) with (continued mch (span_marks p)); rewrite Cp; reflexivity.
  - destruct fuel as [|fuel]; try (cbn in F; lia). cbn [comment_loop].
    assert (G : match reason with LEComment => Ok true | _ => let* n := ends_with_backslash line in Ok (Nat.odd n) end = Ok true).
    { destruct reason; auto; rewrite (ends_with_backslash_ok line Wl); cbn [bind]; f_equal; exact C. }
    rewrite G. cbn [bind]. unfold preceded. rewrite (opt_hash_no i W H). cbn [pbind bind].
    destruct (grab_no_hash i (l :: ls) last rest W H L) as (r & p & rs & E & Wr & Wp & Nr & Hr & [(X & _)|(l0 & ls' & X & Cp & Lr & Sm)]); [discriminate|].
    rewrite E. cbn [pbind bind fst snd]. inversion X; subst. apply (IH fuel r p rs last rest); auto. cbn [length] in F. lia.
Qed.

(** The parts between '#'s. *)
Definition comment_parts (parts : list (list (char * location) * (char * location))) (u : list (char * location)) :=
  flat_map (fun p => fst p ++ [snd p]) parts ++ u.

Lemma comment_loop_parts : forall parts fuel i line u ls last rest, wf_span i ->
  Forall (fun p => ~ has mch c_hash (fst p) /\ fst (snd p) = c_hash) parts -> ~ has mch c_hash u ->
  (exists h, fst h = c_hash /\ span_marks i = h :: comment_parts parts u) ->
  logical_line mch u ls last rest -> length parts + length ls + 3 <= fuel ->
  exists r, comment_loop fuel i line LEComment = Ok (POk r tt) /\ wf_span r /\ span_marks r = rest.
Proof.
  induction parts as [|[l h1] parts IH]; intros fuel i line u ls last rest W HF Hu (h & Hh & M) L F.
  - destruct fuel as [|fuel]; [cbn in F; lia|]. cbn [comment_loop bind]. unfold preceded.
    destruct (opt_hash_ok i h _ W M Hh) as (i1 & E & W1 & M1 & _). rewrite E. cbn [pbind bind]. unfold comment_parts in M1. cbn in M1.
    rewrite <- M1 in Hu, L.
    destruct (grab_no_hash i1 ls last rest W1 Hu L) as (r & p & rs & E1 & Wr & Wp & Nr & Hr & [(El & Cp & Mr)|(l0 & ls' & X & Cp & Lr & Sm)]).
    + rewrite E1. cbn [pbind bind fst snd]. destruct fuel as [|fuel]; [cbn in F; lia|]. cbn [comment_loop]. exists r. ands; auto.
      destruct rs; [congruence| |]; rewrite (ends_with_backslash_ok p Wp); cbn [bind];
        change (Nat.odd (tail_backslashes mch (span_marks p))) with (continued mch (span_marks p)); rewrite Cp; reflexivity.
    + rewrite E1. cbn [pbind bind fst snd]. subst ls. cbn [length] in F. eapply comment_loop_plain; eauto. lia.
  - destruct fuel as [|fuel]; [cbn in F; lia|]. cbn [comment_loop bind]. unfold preceded.
    destruct (opt_hash_ok i h _ W M Hh) as (i1 & E & W1 & M1 & _). rewrite E. cbn [pbind bind].
    inversion HF as [|? ? (Hl & Hh1) HF']; subst. cbn [fst snd] in Hl, Hh1.
    unfold comment_parts in M1. cbn [flat_map fst snd] in M1. rewrite <- !app_assoc in M1. cbn [app] in M1.
    destruct (grab_hash i1 l h1 _ W1 M1 Hl Hh1) as (r & p & E1 & Wr & Wp & Mp & Mr & R). rewrite E1. cbn [pbind bind fst snd].
    apply (IH fuel r p u ls last rest); auto.
    + exists h1. split; auto.
    + cbn [length] in F. lia.
Qed.

Lemma parts_len : forall parts u, length parts <= length (comment_parts parts u).
Proof.
  intros parts u. unfold comment_parts. rewrite app_length. induction parts as [|[l h] ps IH]; cbn; [lia|].
  rewrite !app_length. cbn. lia.
Qed.

Lemma parse_comment_ok : forall s h parts u ls last rest, wf_span s -> fst h = c_hash ->
  Forall (fun p => ~ has mch c_hash (fst p) /\ fst (snd p) = c_hash) parts -> ~ has mch c_hash u ->
  span_marks s = h :: comment_parts parts u -> logical_line mch u ls last rest ->
  exists r, parse_comment s = Ok (POk r tt) /\ wf_span r /\ span_marks r = rest.
Proof.
  intros s h parts u ls last rest W Hh HF Hu M L. unfold parse_comment.
  pose proof (pchar_ok s c_hash W ascii_hash) as P. rewrite span_text_marks, M in P. cbn [List.map] in P.
  rewrite Hh, N.eqb_refl in P. destruct P as (i1 & P & R & Lp). unfold preceded, add_return_error. rewrite P. cbn [pbind bind].
  assert (W1 := sub_wf _ _ _ _ R). assert (M1 := sub_end _ _ _ W R). rewrite M in M1. cbn [skipn] in M1.
  destruct parts as [|[l h1] parts].
  - unfold comment_parts in M1. cbn in M1. rewrite <- M1 in Hu, L.
    destruct (grab_no_hash i1 ls last rest W1 Hu L) as (r & p & rs & E1 & Wr & Wp & Nr & Hr & [(El & Cp & Mr)|(l0 & ls' & X & Cp & Lr & Sm)]).
    + rewrite E1. cbn [pbind bind fst snd comment_loop]. exists r. ands; auto.
      destruct rs; [congruence| |]; rewrite (ends_with_backslash_ok p Wp); cbn [bind];
        change (Nat.odd (tail_backslashes mch (span_marks p))) with (continued mch (span_marks p)); rewrite Cp; reflexivity.
    + rewrite E1. cbn [pbind bind fst snd]. subst ls. eapply comment_loop_plain; eauto.
      assert (K := logical_len _ _ _ _ Lr). rewrite (span_marks_len r Wr) in K. lia.
  - inversion HF as [|? ? (Hl & Hh1) HF']; subst. cbn [fst snd] in Hl, Hh1.
    unfold comment_parts in M1. cbn [flat_map fst snd] in M1. rewrite <- !app_assoc in M1. cbn [app] in M1.
    destruct (grab_hash i1 l h1 _ W1 M1 Hl Hh1) as (r & p & E1 & Wr & Wp & Mp & Mr & R1). rewrite E1. cbn [pbind bind fst snd].
    apply (comment_loop_parts parts _ r p u ls last rest); auto.
    + exists h1. split; auto.
    + assert (K := logical_len _ _ _ _ L). rewrite <- (span_marks_len r Wr), Mr. cbn [length]. rewrite app_length.
      assert (Q := parts_len parts []). unfold comment_parts in Q. rewrite app_nil_r in Q. lia.
Qed.

Lemma parse_comment_no : forall s, wf_span s -> (forall h t, span_marks s = h :: t -> fst h <> c_hash) ->
  exists e, parse_comment s = Ok (PError e).
Proof.
  intros s W H. unfold parse_comment, preceded, add_return_error.
  pose proof (pchar_ok s c_hash W ascii_hash) as P. rewrite span_text_marks in P.
  destruct (span_marks s) as [|h t] eqn:M; cbn [List.map] in P.
  - rewrite P. cbn. eauto.
  - destruct (fst h =? c_hash)%N eqn:Q.
    + apply N.eqb_eq in Q. exfalso. eapply H; eauto.
    + rewrite P. cbn. eauto.
Qed.

(** Every text splits at its '#'s. *)
Lemma comment_parts_total : forall t, exists parts u,
  Forall (fun p => ~ has mch c_hash (fst p) /\ fst (snd p) = c_hash) parts /\ ~ has mch c_hash u /\ t = comment_parts parts u.
Proof.
  induction t as [|c t (parts & u & HF & Hu & E)].
  - exists [], []. ands; auto. apply no_has_nil.
  - destruct (N.eq_dec (fst c) c_hash) as [Q|Q].
    + exists (([], c) :: parts), u. ands; auto.
      * constructor; auto. split; auto. apply no_has_nil.
      * rewrite E. reflexivity.
    + destruct parts as [|[l h] parts].
      * exists [], (c :: u). ands; auto.
        -- rewrite has_cons. tauto.
        -- rewrite E. reflexivity.
      * inversion HF as [|? ? (Hl & Hh) HF']; subst. exists ((c :: l, h) :: parts), u. ands; auto.
        constructor; auto. split; auto. cbn. rewrite has_cons. tauto.
Qed.

(** * File lists *)

Lemma clean_match_ok : forall b strip, wf_block b -> exists b', clean_match (block_span b) strip = Ok b' /\ wf_block b' /\
  block_marks b' = if strip then drop_dot_slash mch (block_marks b) else block_marks b.
Proof.
  intros b strip Wb. assert (W := block_span_wf b Wb). unfold clean_match.
  assert (Mb : span_marks (block_span b) = block_marks b).
  { unfold span_marks, block_span. cbn [sp_off sp_len sp_contents]. rewrite skipn_O. apply firstn_all2.
    unfold block_marks. rewrite crefs_marks_len; auto. }
  destruct strip; cbn [bind].
  - assert (A : asciis [46; 47]%N) by (repeat constructor).
    pose proof (tag_ok (block_span b) [46; 47]%N W A) as T. rewrite span_text_marks, Mb in T.
    assert (Q : starts_with [46; 47]%N (List.map mch (block_marks b)) =
      match block_marks b with x :: y :: _ => ((fst x =? 46) && (fst y =? 47))%N | _ => false end).
    { destruct (block_marks b) as [|x [|y t]]; cbn; auto; rewrite ?andb_false_r; auto. rewrite andb_true_r, (N.eqb_sym (fst x)), (N.eqb_sym (fst y)). reflexivity. }
    rewrite Q in T. destruct (block_marks b) as [|x [|y t]] eqn:M; cbn [drop_dot_slash].
    1,2: rewrite T; cbn [bind]; destruct (to_new_block_ok _ W) as (b' & E & Wb' & M' & _); exists b'; ands; auto; congruence.
    destruct ((fst x =? 46) && (fst y =? 47))%N.
    + destruct T as (r & p & T & R & _). rewrite T. cbn [bind].
      destruct (to_new_block_ok r (sub_wf _ _ _ _ R)) as (b' & E & Wb' & M' & _). exists b'. ands; auto.
      rewrite M', (sub_end _ _ _ W R), Mb. reflexivity.
    + rewrite T. cbn [bind]. destruct (to_new_block_ok _ W) as (b' & E & Wb' & M' & _); exists b'; ands; auto; congruence.
  - destruct (to_new_block_ok _ W) as (b' & E & Wb' & M' & _); exists b'; ands; auto; congruence.
Qed.

Lemma file_stop_bslash : forall extra, ~ In c_bslash extra -> file_stop extra c_bslash = false.
Proof.
  intros extra H. unfold file_stop. cbn -[existsb]. destruct (existsb (N.eqb c_bslash) extra) eqn:E; auto.
  apply existsb_exists in E as (x & I & Q). apply N.eqb_eq in Q. subst. contradiction.
Qed.
Lemma file_stop_nul : forall extra, file_stop extra 0%N = true.
Proof. reflexivity. Qed.

Definition cleaned (strip : bool) (w : list (char * location)) := if strip then drop_dot_slash mch w else w.

Lemma unquote_shorter : forall {A} (ch : A -> char) stop t pend o c rest,
  unquote ch stop pend t = (o, Stopped c rest) -> length rest < length t.
Proof.
  intros A ch stop. induction t as [|x t IH]; intros pend o c rest E; cbn [unquote] in E; [discriminate|].
  cbn [length]. destruct (backslash (ch x)); [apply IH in E; lia|].
  destruct (unquote ch stop [] t) as [o2 e2] eqn:U.
  destruct (stop (ch x)); [destruct (Nat.even (length pend))|]; inversion E; subst; try lia; apply IH in U; lia.
Qed.

Lemma file_seq_loop_ok : forall extra strip, ~ In c_bslash extra ->
  forall fuel i ws out, wf_span i -> sp_len i < fuel -> file_words mch (file_stop extra) (span_marks i) ws ->
  Forall wf_block out ->
  exists bs, file_seq_loop fuel strip extra i out = Ok (out ++ bs) /\ Forall wf_block bs /\
    List.map block_marks bs = List.map (cleaned strip) ws.
Proof.
  intros extra strip He. assert (Hb := file_stop_bslash extra He).
  induction fuel as [|fuel IH]; intros i ws out W F FW Wo; [lia|]. cbn [file_seq_loop].
  assert (Ln := span_marks_len i W).
  destruct (Nat.ltb_spec 0 (sp_len i)) as [P|P].
  2:{ assert (sp_len i = 0) by lia. rewrite H in Ln. destruct (span_marks i) eqn:M; [|discriminate].
      inversion FW; subst; try discriminate; [|congruence]. exists []. rewrite app_nil_r. ands; auto. }
  destruct (take_until_unquote_nul i (file_stop extra) W Hb (file_stop_nul extra)) as [(Z & _)|(_ & pre & r & E & Wp & Post)]; [lia|].
  rewrite E. cbn [bind].
  assert (G : forall m, block_marks pre = m -> exists bs1,
     (if 0 <? block_len pre then let* b := clean_match (block_span pre) strip in Ok (out ++ [b]) else Ok out) = Ok (out ++ bs1) /\
     Forall wf_block bs1 /\ List.map block_marks bs1 = List.map (cleaned strip) (word_and m [])).
  { intros m Hm. assert (Lm : length m = block_len pre).
    { rewrite <- Hm. unfold block_marks. rewrite crefs_marks_len; auto. }
    destruct (Nat.ltb_spec 0 (block_len pre)) as [Q|Q].
    - destruct (clean_match_ok pre strip Wp) as (b & Eb & Wb & Mb). rewrite Eb. cbn [bind]. exists [b]. ands; auto.
      destruct m; [cbn in Lm; lia|]. cbn. f_equal. rewrite Mb, Hm. reflexivity.
    - exists []. rewrite app_nil_r. ands; auto. destruct m; [reflexivity|cbn in Lm; lia]. }
  assert (WA : forall (w : list (char * location)) ws, word_and w ws = word_and w [] ++ ws) by (intros [|] ?; reflexivity).
  inversion FW; subst.
  - match goal with X : [] = span_marks i |- _ => rewrite <- X in Ln end. cbn in Ln. lia.
  - rewrite H in Post. destruct Post as (Mp & s & post & k & Er & Mpost & Sp & Kp). rewrite Er. cbn [bind].
    destruct (G _ Mp) as (bs1 & E1 & W1 & M1). rewrite E1. cbn [bind].
    destruct (IH post ws0 (out ++ bs1)) as (bs & E2 & W2 & M2); auto.
    + apply (sub_wf _ _ _ _ Sp).
    + destruct Sp as (_ & X & Y & _). rewrite Y. lia.
    + rewrite Mpost. exact H0.
    + apply Forall_app. split; auto.
    + exists (bs1 ++ bs). rewrite E2, app_assoc. ands; auto.
      * apply Forall_app. split; auto.
      * rewrite map_app, M1, M2, <- map_app, <- WA. reflexivity.
  - rewrite H0 in Post. cbn zeta in Post.
    assert (exists i', match r with Some (_, post) => Ok post | None => slice_from i (sp_len i) end = Ok i' /\ wf_span i' /\ sp_len i' = 0 /\
      block_marks pre = o ++ final_backslashes (length (span_marks i)) o pend) as (i' & Ei & Wi & Li & Mp).
    { unfold final_backslashes. rewrite Ln. destruct (Nat.even (length pend)).
      - destruct Post as (Mp & s & post & -> & Mpost & Sp). exists post. ands; eauto using sub_wf. destruct Sp as (_ & _ & Y & _). exact Y.
      - destruct Post as (Mp & ->). destruct (slice_from_sub i (sp_len i) W ltac:(lia)) as (i' & Ei & Si).
        exists i'. ands; eauto using sub_wf. destruct Si as (_ & _ & Y & _). lia. }
    rewrite Ei. cbn [bind]. destruct (G _ Mp) as (bs1 & E1 & W1 & M1). rewrite E1. cbn [bind].
    exists bs1. ands; auto. destruct fuel; [lia|]. cbn [file_seq_loop]. rewrite Li. reflexivity.
Qed.

Lemma parse_file_seq_ok : forall s strip extra ws, wf_span s -> ~ In c_bslash extra ->
  file_words mch (file_stop extra) (lstrip mch (span_marks s)) ws ->
  exists bs, parse_file_seq s strip extra = Ok bs /\ Forall wf_block bs /\
    List.map block_marks bs = List.map (cleaned strip) ws.
Proof.
  intros s strip extra ws W He FW. unfold parse_file_seq.
  destruct (whitespace_marks s W) as (r & q & E & R & M). rewrite E. cbn [bind].
  rewrite <- M in FW. destruct (file_seq_loop_ok extra strip He (S (sp_len r)) r ws []) as (bs & E2 & X); eauto using sub_wf.
Qed.

Lemma file_words_total : forall {A} (ch : A -> char) stop t, exists ws, file_words ch stop t ws.
Proof.
  intros A ch stop t. remember (length t) as n eqn:Hn. revert t Hn. induction n as [n IH] using lt_wf_ind. intros t Hn.
  destruct t as [|c t]; [eexists; constructor|].
  destruct (unquote ch stop [] (c :: t)) as [o [d rest|pend]] eqn:U.
  - assert (L := unquote_shorter _ _ _ _ _ _ _ U). destruct (IH (length rest)) with (t := rest) as (ws & Hw); auto; [lia|].
    eexists. eapply FW_stop; eauto.
  - eexists. eapply FW_end; eauto. discriminate.
Qed.

Lemma unquote_no_backslash : forall {A} (ch : A -> char) (stop : char -> bool) t, ~ has ch c_bslash t ->
  (exists o c rest, unquote ch stop [] t = (o, Stopped c rest) /\ t = o ++ c :: rest /\ stop (ch c) = true /\ forall a, In a o -> stop (ch a) = false) \/
  (unquote ch stop [] t = (t, Ended []) /\ forall a, In a t -> stop (ch a) = false).
Proof.
  intros A ch stop. induction t as [|x t IH]; intros H; cbn [unquote].
  - right. split; auto. contradiction.
  - rewrite has_cons in H. assert (B : backslash (ch x) = false).
    { unfold backslash. destruct (ch x =? 92)%N eqn:Q; auto. apply N.eqb_eq in Q. exfalso. apply H. auto. }
    rewrite B. destruct (stop (ch x)) eqn:St; cbn.
    + left. exists [], x, t. ands; auto. contradiction.
    + destruct IH as [(o & c & rest & E & T & Sc & F)|(E & F)]; [tauto| |].
      * left. rewrite E. exists (x :: o), c, rest. ands; auto; [rewrite T; reflexivity|]. intros a [<-|I]; auto.
      * right. rewrite E. split; auto. intros a [<-|I]; auto.
Qed.

Lemma split_at_word : forall {A} (ch : A -> char) (stop : char -> bool) o w rest, (forall a, In a o -> stop (ch a) = false) ->
  split_at ch stop w (o ++ rest) = split_at ch stop (w ++ o) rest.
Proof.
  intros A ch stop. induction o as [|x o IH]; intros w rest H; cbn; [rewrite app_nil_r; reflexivity|].
  rewrite (H x) by (left; auto). rewrite IH by (intros; apply H; right; auto). rewrite <- app_assoc. reflexivity.
Qed.

Lemma file_words_plain : forall {A} (ch : A -> char) stop t, ~ has ch c_bslash t ->
  file_words ch stop t (split_at ch stop [] t).
Proof.
  intros A ch stop t. remember (length t) as n eqn:Hn. revert t Hn. induction n as [n IH] using lt_wf_ind. intros t Hn H.
  destruct t as [|c0 t0]; [constructor|]. remember (c0 :: t0) as t.
  destruct (unquote_no_backslash ch stop t H) as [(o & c & rest & E & T & Sc & F)|(E & F)].
  - rewrite T at 2. rewrite split_at_word by exact F. cbn. rewrite Sc. eapply FW_stop; eauto.
    apply (IH (length rest)); auto.
    + assert (L := unquote_shorter _ _ _ _ _ _ _ E). lia.
    + intros X. apply H. rewrite T. apply has_app. right. apply has_cons. auto.
  - rewrite <- (app_nil_r t) at 2. rewrite split_at_word by exact F. cbn.
    replace t with (t ++ final_backslashes (length t) t []) at 2 by (cbn; rewrite app_nil_r; reflexivity).
    apply FW_end; auto. subst t. discriminate.
Qed.

(** Blanks at the start make no difference to the words of a plain text. *)
Lemma split_at_lstrip : forall {A} (ch : A -> char) (stop : char -> bool), stop 32%N = true -> stop 9%N = true ->
  forall t, split_at ch stop [] (lstrip ch t) = split_at ch stop [] t.
Proof.
  intros A ch stop H1 H2. induction t as [|c t IH]; auto. unfold lstrip. cbn [drop_while].
  destruct (blank (ch c)) eqn:B; auto. fold (lstrip ch t). rewrite IH. cbn.
  unfold blank in B. apply orb_true_iff in B as [B|B]; apply N.eqb_eq in B; rewrite B, ?H1, ?H2; reflexivity.
Qed.

Lemma parse_file_seq_plain : forall s strip extra, wf_span s -> ~ In c_bslash extra -> ~ has mch c_bslash (span_marks s) ->
  exists bs, parse_file_seq s strip extra = Ok bs /\ Forall wf_block bs /\
    List.map block_marks bs = List.map (cleaned strip) (split_at mch (file_stop extra) [] (span_marks s)).
Proof.
  intros s strip extra W He H. apply parse_file_seq_ok; auto.
  rewrite <- (split_at_lstrip mch (file_stop extra)) by reflexivity. apply file_words_plain.
  apply lstrip_no. exact H.
Qed.
