(** Proofs about expression parsing: the parsers read what the specification
    says, on every text. *)
From Coq Require Import String Lia.
From Verif Require Import Base LocModel EvdModel NomModel AstModel ParseModel AstParseModel
  EvdSpec ParseSpec EvalSpec AstParseSpec EvdProofs EvdProofs2 EvdProofs3 ParseProofs ParseProofs2 AstParseProofs.
Local Open Scope nat_scope.

(** * Reading *)

Lemma spells_nil : forall cs, spells cs [] -> cs = [].
Proof.
  intros [|g cs] (E & F); [reflexivity|]. exfalso. inversion F; subst. rewrite segments_marks_cons in E.
  apply app_eq_nil in E as (E & _). destruct g as [l [|c s]]; [now contradiction H1|discriminate].
Qed.

Lemma spells_one : forall c, spells [Located (snd c) [fst c]] [c].
Proof. intros (c, l). split; [reflexivity|]. repeat constructor. discriminate. Qed.

Lemma spells_app : forall a b t u, spells a t -> spells b u -> spells (a ++ b) (t ++ u).
Proof.
  intros a b t u (E & F) (E' & F'). split; [|now apply Forall_app]. unfold segments_marks in *.
  now rewrite map_app, concat_app, E, E'.
Qed.

Lemma spells_exists : forall t, exists cs, spells cs t.
Proof.
  induction t as [|c t (cs & IH)]; [now exists []|]. exists ([Located (snd c) [fst c]] ++ cs).
  apply (spells_app _ _ [c]); [apply spells_one|exact IH].
Qed.

Lemma reads_text : forall (whole : Prop) t cs u ns, ~ has fst dollar t -> spells cs t -> (whole -> parted located_marks cs /\ begins_dollar u) ->
  reads whole u ns -> reads whole (t ++ u) (List.map a_constant cs ++ ns).
Proof.
  intros whole t cs u ns H S B R. destruct t as [|c t].
  - now rewrite (spells_nil cs S).
  - now apply R_text.
Qed.

Lemma reads_after_text : forall t u ns, ~ has fst dollar t -> reads False (t ++ u) ns -> exists ns', reads False u ns'.
Proof.
  intros t u ns H R. remember (t ++ u) as v eqn:E. revert t u H E.
  induction R; intros t' u' H' E.
  - symmetry in E. apply app_eq_nil in E as (_ & ->). exists []. constructor.
  - destruct (le_ge_dec (List.length t) (List.length t')) as [L|L].
    + destruct (app_prefix _ _ _ _ E L) as (e & -> & ->). apply (IHR e u'); auto.
      intros X. apply H'. apply has_app. auto.
    + symmetry in E. destruct (app_prefix _ _ _ _ E L) as (e & -> & ->).
      destruct (spells_exists e) as (cs' & S'). eexists. apply reads_text; [|eassumption|tauto|eassumption].
      intros X. apply H0. apply has_app. auto.
  - destruct t' as [|x t']; [cbn in E; subst; eexists; constructor; eassumption|].
    exfalso. injection E as <- E. apply H'. apply has_cons. auto.
  - destruct t' as [|x t']; [cbn in E; subst; eexists; eapply R_dollar; eassumption|].
    exfalso. injection E as <- E. apply H'. apply has_cons. auto.
  - destruct t' as [|x t']; [cbn in E; subst; eexists; eapply R_char; eassumption|].
    exfalso. injection E as <- E. apply H'. apply has_cons. auto.
  - destruct t' as [|x t']; [cbn in E; subst; eexists; eapply R_var; eassumption|].
    exfalso. injection E as <- E. apply H'. apply has_cons. auto.
  - destruct t' as [|x t']; [cbn in E; subst; eexists; eapply R_call; eassumption|].
    exfalso. injection E as <- E. apply H'. apply has_cons. auto.
Qed.

(** Reading a text that begins with a dollar sign. *)
Lemma reads_dollar_inv : forall (whole : Prop) d t ns, fst d = dollar -> reads whole (d :: t) ns ->
  (t = [] /\ ns = [a_constant (Located (snd d) [dollar])]) \/
  (exists c u ns', t = c :: u /\ fst c = dollar /\ reads whole u ns' /\ ns = a_constant (Located (snd c) [dollar]) :: ns') \/
  (exists c u ns', t = c :: u /\ ~ In (fst c) [dollar; open_paren; close_brace] /\ reads whole u ns' /\
     ns = AVar (snd d) (a_constant (Located (snd c) [fst c])) :: ns') \/
  (exists b o c u inner rest a ns', t = b :: u /\ opens (fst b) o c /\ group o c u inner rest /\
     (forall k, In k function_names -> ~ begins_with k inner) /\ reads_ast whole inner a /\ reads whole rest ns' /\
     ns = AVar (snd d) a :: ns') \/
  (exists b o c u inner rest a, t = b :: u /\ opens (fst b) o c /\ group o c u inner rest /\
     calls whole (snd d) inner a /\ ns = [a]).
Proof.
  intros whole d t ns D R. inversion R; subst.
  - exfalso. destruct t0 as [|x t0]; [congruence|]. cbn in H. injection H as <- _. apply H1. apply has_cons. auto.
  - auto.
  - right; left. eauto 10.
  - right; right; left. eauto 10.
  - right; right; right; left. eauto 20.
  - right; right; right; right. eauto 20.
Qed.

Lemma opens_ne : forall b o c, opens b o c -> o <> c /\ ascii o /\ ascii c.
Proof. intros b o c H. destruct H; ands; try discriminate; reflexivity. Qed.
Lemma opens_fun : forall b o c o' c', opens b o c -> opens b o' c' -> o' = o /\ c' = c.
Proof. intros b o c o' c' H H'. inversion H; subst; inversion H'; auto. Qed.

(** * Parsers *)

Definition other_failure (ks : list kind) : Prop := is_not_a_function_call (error_kind ks) = false.

Definition keeps (s r : span) : Prop := wf_span r /\ sp_len r <= sp_len s /\ (tidy s -> tidy r) /\ sp_parent r = sp_parent s /\ (flat s -> flat r).

Lemma sub_keeps : forall s a n r, sub s a n r -> keeps s r.
Proof.
  intros s a n r H. split; [|split; [|split; [|split]]].
  - apply H.
  - destruct H as (_ & L & E & _). lia.
  - intros F. eapply tidy_sub; eauto.
  - apply H.
  - intros F. eapply flat_sub; eauto.
Qed.

Lemma keeps_trans : forall s r u, keeps s r -> keeps r u -> keeps s u.
Proof. intros s r u (_ & L & T & P & F) (W & L' & T' & P' & F'). split; [auto|]. split; [lia|]. split; [auto|]. split; [congruence|auto]. Qed.

Lemma keeps_whole : forall (whole : Prop) s r, (whole -> tidy s) -> keeps s r -> whole -> tidy r.
Proof. intros whole s r T K H. apply K. auto. Qed.

Definition parse_good (whole : Prop) (s : span) (r : res (presult ast)) : Prop :=
  match r with
  | Ok (POk rest a) => keeps s rest /\ sp_len rest = 0 /\ reads_ast whole (span_marks s) a
  | Ok (PError _) => False
  | Ok (PFailure ks) => other_failure ks /\ forall a, ~ reads_ast False (span_marks s) a
  | Panic => ~ flat s
  | OutOfFuel => False
  end.

Lemma lstrip_twice : forall {A} (ch : A -> char) l, lstrip ch (lstrip ch l) = lstrip ch l.
Proof.
  intros A ch. induction l as [|a l IH]; [reflexivity|]. unfold lstrip in *. cbn. destruct (blank (ch a)) eqn:B; [exact IH|].
  cbn. now rewrite B.
Qed.

Lemma whitespace_keeps : forall s, wf_span s ->
  exists r q, makefile_whitespace s = Ok (POk r q) /\ keeps s r /\ span_marks r = lstrip fst (span_marks s).
Proof.
  intros s W. destruct (whitespace_marks s W) as (r & q & E & S & M). exists r, q. split; [exact E|]. split; [|exact M].
  eapply sub_keeps; eauto.
Qed.

Lemma many1_whitespace : forall s, wf_span s ->
  exists r, many1 makefile_whitespace s = Ok (POk r tt) /\ keeps s r /\ span_marks r = lstrip fst (span_marks s).
Proof.
  intros s W. destruct (whitespace_keeps s W) as (r & q & E & K & M). unfold many1. rewrite E. cbn [bind].
  cbn [many_loop]. destruct (whitespace_keeps r (proj1 K)) as (r2 & q2 & E2 & K2 & M2). rewrite E2. cbn [bind].
  assert (sp_len r2 = sp_len r) as L.
  { rewrite <- !span_marks_len by (apply K || apply K2). rewrite M2, M, lstrip_twice. reflexivity. }
  rewrite L, Nat.eqb_refl. exists r. auto.
Qed.

Lemma indices_marks : forall s, wf_span s ->
  span_indices s = (combine (seq 0 (List.length (span_marks s))) (List.map fst (span_marks s)), false).
Proof.
  intros s W. rewrite span_indices_ok by exact W. unfold enumerate. rewrite span_text_marks, map_length. reflexivity.
Qed.

Lemma function_argument_good : forall s, wf_span s ->
  match function_argument s with
  | Ok (POk r arg) => keeps s r /\ keeps s arg /\ argument (lstrip fst (span_marks s)) (span_marks arg) (span_marks r)
  | Ok (PFailure ks) => other_failure ks /\ forall a r, ~ argument (lstrip fst (span_marks s)) a r
  | _ => False
  end.
Proof.
  intros s W. unfold function_argument. destruct (whitespace_keeps s W) as (i & q & E & K & M). rewrite E. cbn [pbind bind].
  assert (Wi : wf_span i) by apply K. rewrite (indices_marks i Wi). cbn [fst snd]. rewrite <- M.
  pose proof (scan_ok (span_marks i) 0 0 0) as S.
  assert (T : forall n, n <= sp_len i -> exists r p, take_split i n = Ok (r, p) /\ keeps s r /\ keeps s p /\
      span_marks p = firstn n (span_marks i) /\ span_marks r = skipn n (span_marks i)).
  { intros n L. destruct (take_split_sub i n Wi L) as (r & p & T & S1 & S2). exists r, p. split; [exact T|].
    split; [eapply keeps_trans; [exact K|eapply sub_keeps; eauto]|]. split; [eapply keeps_trans; [exact K|eapply sub_keeps; eauto]|].
    split; [apply S2|]. now apply sub_end. }
  destruct (scan_argument _ _ _ _) as [[j| |]| |]; try contradiction; cbn [bind].
  - destruct S as (arg & x & rest & Em & X & -> & A & B & C & D). cbn [plus].
    assert (List.length (span_marks i) = sp_len i) as L by now apply span_marks_len.
    destruct (T (List.length arg)) as (r & p & -> & Kr & Kp & Mp & Mr).
    { rewrite <- L, Em, app_length. cbn. lia. }
    cbn. rewrite Em in Mp, Mr. rewrite firstn_app, firstn_all, Nat.sub_diag, firstn_O, app_nil_r in Mp.
    rewrite skipn_app, skipn_all, Nat.sub_diag in Mr. cbn in Mr. split; [exact Kr|]. split; [exact Kp|].
    rewrite Mp, Mr. split; [exact Em|]. ands; auto. 
  - destruct S as (A & B & C). destruct (T (sp_len i)) as (r & p & -> & Kr & Kp & Mp & Mr); [lia|].
    cbn. rewrite <- (span_marks_len i Wi) in Mp, Mr. rewrite firstn_all in Mp. rewrite skipn_all in Mr.
    split; [exact Kr|]. split; [exact Kp|]. rewrite Mp, Mr. split; [now rewrite app_nil_r|]. ands; auto.
  - destruct S as (p & q' & Em & A & B). cbn. split; [reflexivity|]. rewrite Em. now apply unbalanced_no_argument.
Qed.

Lemma lit_ascii : forall s, forallb (fun c => (c <? 128)%N) (lit s) = true -> asciis (lit s).
Proof.
  intros s H. apply Forall_forall. intros c I. eapply forallb_forall in H; [|exact I]. now apply N.ltb_lt.
Qed.

Lemma begins_starts : forall k t, begins_with k t <-> starts_with (lit k) (List.map fst t) = true.
Proof.
  intros k t. rewrite starts_with_iff. split.
  - intros (u & w & -> & E). exists (List.map fst u). now rewrite map_app, <- E.
  - intros (post & E). exists (skipn (List.length (lit k)) t), (firstn (List.length (lit k)) t).
    split; [symmetry; apply firstn_skipn|]. unfold chars. rewrite <- firstn_map, E, firstn_app, firstn_all, Nat.sub_diag, firstn_O.
    apply app_nil_r.
Qed.

Lemma begins_skip : forall k t u, begins k t u -> u = skipn (List.length (lit k)) t.
Proof.
  intros k t u (w & -> & E). rewrite <- E. unfold chars. rewrite map_length, skipn_app, skipn_all, Nat.sub_diag. reflexivity.
Qed.
Lemma begins_fun : forall k t u u', begins k t u -> begins k t u' -> u = u'.
Proof. intros k t u u' H H'. rewrite (begins_skip _ _ _ H), (begins_skip _ _ _ H'). reflexivity. Qed.

Lemma func_entry_good : forall name f loc s, wf_span s -> asciis (lit name) ->
  (begins_with name (span_marks s) /\ exists r u, func_entry name f loc s = f loc r /\ keeps s r /\
     begins name (span_marks s) u /\ span_marks r = lstrip fst u) \/
  (~ begins_with name (span_marks s) /\ func_entry name f loc s = Ok (PError [KNom])).
Proof.
  intros name f loc s W A. unfold func_entry. pose proof (tag_ok s (lit name) W A) as T. rewrite begins_starts, <- span_text_marks.
  destruct (starts_with (lit name) (span_text s)) eqn:B.
  - left. split; [reflexivity|]. destruct T as (r & p & -> & Sr & Sp & L). cbn [pbind bind].
    destruct (many1_whitespace r (sub_wf _ _ _ _ Sr)) as (r2 & -> & K2 & M2). cbn [pbind bind].
    exists r2, (span_marks r). ands; auto.
    + eapply keeps_trans; [exact (sub_keeps _ _ _ _ Sr)|exact K2].
    + rewrite span_text_marks in B. apply begins_starts in B as (u & B). pose proof (begins_skip _ _ _ B) as E.
      rewrite (sub_end _ _ _ W Sr), <- E. exact B.
  - right. split; [discriminate|]. rewrite T. reflexivity.
Qed.

Section Parsers.
  Context (whole : Prop) (pa : parser ast) (bound : nat).
  Context (Hpa : forall s, wf_span s -> (whole -> tidy s) -> sp_len s < bound -> parse_good whole s (pa s)).

  Definition call_good (loc : location) (s : span) (r : res (presult ast)) : Prop :=
    match r with
    | Ok (POk rest a) => keeps s rest /\ sp_len rest = 0 /\ calls whole loc (span_marks s) a
    | Ok (PError _) => False
    | Ok (PFailure ks) => other_failure ks /\ forall a, ~ calls False loc (span_marks s) a
    | Panic => ~ flat s
    | OutOfFuel => False
    end.

  Lemma eval_good : forall loc s r u, wf_span s -> (whole -> tidy s) -> keeps s r -> sp_len r < bound ->
    begins "eval" (span_marks s) u -> span_marks r = lstrip fst u ->
    (forall a, calls False loc (span_marks s) a -> exists a', reads_ast False (lstrip fst u) a' /\ a = AEval loc a') ->
    call_good loc s (fn_eval pa loc r).
  Proof.
    intros loc s r u W T K L B M I. unfold fn_eval. pose proof (Hpa r (proj1 K) (keeps_whole _ _ _ T K) L) as G.
    destruct (pa r) as [[rest a|ks|ks]| |]; cbn in *; auto.
    - destruct G as (Kr & Z & R). ands; auto.
      + eapply keeps_trans; eauto.
      + eapply C_eval; eauto. now rewrite <- M.
    - destruct G as (O & N). split; [exact O|]. intros a C. apply I in C as (a' & R & _). apply (N a'). now rewrite M.
    - intros F. apply G. now apply K.
  Qed.

  Lemma argument_one : forall loc s r u c name, wf_span s -> (whole -> tidy s) -> keeps s r -> sp_len r < bound ->
    span_marks r = lstrip fst u ->
    (forall arg a', argument (lstrip fst u) arg [] -> reads_ast whole arg a' -> calls whole loc (span_marks s) (c a')) ->
    (forall a, calls False loc (span_marks s) a -> exists arg a', argument (lstrip fst u) arg [] /\ reads_ast False arg a') ->
    call_good loc s (let! (i, arg) := function_argument r in
      if negb (sp_len i =? 0) then fail_out (ExtraArguments name)
      else let! (_j, arg) := pa arg in pok i (c arg)).
  Proof.
    intros loc s r u c name W T K L M C I. pose proof (function_argument_good r (proj1 K)) as G.
    rewrite M, lstrip_twice in G.
    destruct (function_argument r) as [[i arg|ks|ks]| |]; cbn [pbind bind] in *; try contradiction.
    - destruct G as (Ki & Ka & A). destruct (Nat.eqb_spec (sp_len i) 0) as [Z|Z]; cbn [negb].
      + assert (span_marks i = []) as Mi by (apply length_zero_iff_nil; rewrite span_marks_len; [exact Z|apply Ki]).
        rewrite Mi in A. pose proof (Hpa arg (proj1 Ka) (keeps_whole _ _ _ (keeps_whole _ _ _ T K) Ka)) as P. destruct Ka as (Wa & La & Ta & Pa & Fa).
        specialize (P ltac:(lia)). destruct (pa arg) as [[rest a|ks|ks]| |]; cbn in *; auto.
        * destruct P as (Kr & Zr & R). ands; eauto. eapply keeps_trans; eauto.
        * destruct P as (O & N). split; [exact O|]. intros a X. apply I in X as (arg' & a' & A' & R').
          destruct (argument_unique _ _ _ _ _ A A') as (<- & _). exact (N _ R').
        * intros F. apply P, Fa, K, F.
      + split; [reflexivity|]. intros a X. apply I in X as (arg' & a' & A' & R').
        destruct (argument_unique _ _ _ _ _ A A') as (_ & E).
        apply Z. rewrite <- (span_marks_len i (proj1 Ki)), E. reflexivity.
    - destruct G as (O & N). split; [exact O|]. intros a X. apply I in X as (arg' & a' & A' & R'). exact (N _ _ A').
  Qed.

  Lemma word_good : forall loc s r u, wf_span s -> (whole -> tidy s) -> keeps s r -> sp_len r < bound ->
    span_marks r = lstrip fst u ->
    (forall arg1 x v arg2 a1 a2, argument (lstrip fst u) arg1 (x :: v) -> reads_ast whole arg1 a1 ->
      argument (lstrip fst v) arg2 [] -> reads_ast whole arg2 a2 -> calls whole loc (span_marks s) (AWord loc a1 a2)) ->
    (forall a, calls False loc (span_marks s) a -> exists arg1 x v arg2 a1 a2, argument (lstrip fst u) arg1 (x :: v) /\ reads_ast False arg1 a1 /\
      argument (lstrip fst v) arg2 [] /\ reads_ast False arg2 a2) ->
    call_good loc s (fn_word pa loc r).
  Proof.
    intros loc s r u W T K L M C I. unfold fn_word. pose proof (function_argument_good r (proj1 K)) as G.
    rewrite M, lstrip_twice in G.
    destruct (function_argument r) as [[i arg|ks|ks]| |]; cbn [pbind bind] in *; try contradiction.
    2: { destruct G as (O & N). split; [exact O|]. intros a X. apply I in X as (arg1 & x & v & arg2 & a1 & a2 & A' & _). exact (N _ _ A'). }
    destruct G as (Ki & Ka & A). pose proof (pchar_ok i c_comma (proj1 Ki) eq_refl) as P. rewrite span_text_marks in P.
    destruct (span_marks i) as [|x v] eqn:Mi; cbn [List.map] in P.
    { rewrite P. cbn. split; [reflexivity|]. intros a X. apply I in X as (arg1 & x & v & arg2 & a1 & a2 & A' & _).
      destruct (argument_unique _ _ _ _ _ A A') as (_ & E). discriminate. }
    assert (Xc : fst x = comma) by apply A. rewrite Xc in P. change c_comma with comma in P. rewrite N.eqb_refl in P.
    destruct P as (i2 & Pc & S2 & _). change c_comma with comma. rewrite Pc. cbn [bind].
    pose proof (sub_keeps _ _ _ _ S2) as K2. assert (M2 : span_marks i2 = v).
    { rewrite (sub_end _ _ _ (proj1 Ki) S2), Mi. reflexivity. }
    pose proof (Hpa arg (proj1 Ka) (keeps_whole _ _ _ (keeps_whole _ _ _ T K) Ka)) as P1. destruct Ka as (Wa & La & Ta & Pa & Fa). specialize (P1 ltac:(lia)).
    destruct (pa arg) as [[rest a1|ks|ks]| |]; cbn [pbind bind] in *; try contradiction.
    3: { cbn. intros F. apply P1, Fa, K, F. }
    2: { cbn. destruct P1 as (O & N). split; [exact O|]. intros a X. apply I in X as (arg1 & x' & v' & arg2 & a1 & a2 & A' & R' & _).
         destruct (argument_unique _ _ _ _ _ A A') as (<- & _). exact (N _ R'). }
    destruct P1 as (_ & _ & R1).
    pose proof (function_argument_good i2 (proj1 K2)) as G2. rewrite M2 in G2.
    destruct (function_argument i2) as [[i3 arg2|ks|ks]| |]; cbn [pbind bind] in *; try contradiction.
    2: { cbn. destruct G2 as (O & N). split; [exact O|]. intros a X. apply I in X as (arg1 & x' & v' & arg2 & a1' & a2 & A' & R' & A2 & _).
         destruct (argument_unique _ _ _ _ _ A A') as (_ & E). injection E as <- <-. exact (N _ _ A2). }
    destruct G2 as (K3 & Ka2 & A2). destruct (Nat.eqb_spec (sp_len i3) 0) as [Z|Z]; cbn [negb].
    - assert (span_marks i3 = []) as M3 by (apply length_zero_iff_nil; rewrite span_marks_len; [exact Z|apply K3]).
      rewrite M3 in A2.
      assert (Kt : keeps s arg2) by (eapply keeps_trans; [exact K|eapply keeps_trans; [exact Ki|eapply keeps_trans; [exact K2|exact Ka2]]]).
      pose proof (Hpa arg2 (proj1 Ka2) (keeps_whole _ _ _ T Kt)) as P2.
      assert (Kl : sp_len arg2 < bound) by (destruct Ka2, K2, Ki; lia). specialize (P2 Kl).
      destruct (pa arg2) as [[rest2 a2|ks|ks]| |]; cbn in *; auto.
      + destruct P2 as (_ & _ & R2). ands; eauto.
        eapply keeps_trans; [exact K|eapply keeps_trans; [exact Ki|eapply keeps_trans; [exact K2|exact K3]]].
      + destruct P2 as (O & N). split; [exact O|]. intros a X. apply I in X as (arg1 & x' & v' & arg2' & a1' & a2 & A' & R' & A2' & R2).
        destruct (argument_unique _ _ _ _ _ A A') as (_ & E). injection E as <- <-.
        destruct (argument_unique _ _ _ _ _ A2 A2') as (<- & _). exact (N _ R2).
      + intros F. apply P2, Kt, F.
    - cbn. split; [reflexivity|]. intros a X. apply I in X as (arg1 & x' & v' & arg2' & a1' & a2 & A' & R' & A2' & R2).
      destruct (argument_unique _ _ _ _ _ A A') as (_ & E). injection E as <- <-.
      destruct (argument_unique _ _ _ _ _ A2 A2') as (_ & E).
      apply Z. rewrite <- (span_marks_len i3 (proj1 K3)), E. reflexivity.
  Qed.

  Lemma begins_clash : forall j k t, begins_with j t -> begins_with k t ->
    starts_with (lit j) (lit k) = false -> starts_with (lit k) (lit j) = false -> False.
  Proof.
    intros j k t A B. rewrite begins_starts in *. generalize dependent (List.map fst t). clear. generalize (lit j) (lit k).
    intros a. induction a as [|x a IH]; intros b l A B C D; [discriminate|]. destruct b as [|y b]; [discriminate|].
    destruct l as [|z l]; [discriminate|]. cbn in *. apply andb_prop in A as (A1 & A2). apply andb_prop in B as (B1 & B2).
    apply N.eqb_eq in A1, B1. subst. rewrite N.eqb_refl in *. cbn in *. eauto.
  Qed.

  Ltac clash := match goal with
    | A : begins ?j ?t _, B : begins ?k ?t _ |- _ =>
        exfalso; eapply (begins_clash j k t); [eexists; exact A|eexists; exact B|reflexivity|reflexivity]
    end.

  Lemma function_call_good : forall loc s, wf_span s -> (whole -> tidy s) -> sp_len s < bound ->
    ((exists k, In k function_names /\ begins_with k (span_marks s)) /\ call_good loc s (function_call pa loc s)) \/
    ((forall k, In k function_names -> ~ begins_with k (span_marks s)) /\
     function_call pa loc s = Ok (PFailure [KCustom (InternalFailure not_a_function_call)])).
  Proof.
    intros loc s W T L. unfold function_call. cbn [palt].
    destruct (func_entry_good "eval" (fn_eval pa) loc s W) as [(B & r & u & -> & K & Bu & M)|(B & ->)]; [now apply lit_ascii| |].
    { left. split; [exists "eval"%string; cbn; auto|].
      assert (G : call_good loc s (fn_eval pa loc r)).
      { eapply eval_good; eauto; [destruct K; lia|]. intros a C. inversion C; subst; try clash. rewrite (begins_fun _ _ _ _ Bu H). eauto. }
      destruct (fn_eval pa loc r) as [[| |]| |]; cbn in *; auto. contradiction. }
    cbn [bind]. destruct (func_entry_good "strip" (fn_strip pa) loc s W) as [(B1 & r & u & -> & K & Bu & M)|(B1 & ->)]; [now apply lit_ascii| |].
    { left. split; [exists "strip"%string; cbn; auto|].
      assert (G : call_good loc s (fn_strip pa loc r)).
      { unfold fn_strip. eapply argument_one with (u := u); eauto.
        - destruct K; lia.
        - intros. eapply C_strip; eauto.
        - intros a C. inversion C; subst; try clash. rewrite (begins_fun _ _ _ _ Bu H). eauto. }
      destruct (fn_strip pa loc r) as [[| |]| |]; cbn in *; auto. contradiction. }
    cbn [bind]. destruct (func_entry_good "words" (fn_words pa) loc s W) as [(B2 & r & u & -> & K & Bu & M)|(B2 & ->)]; [now apply lit_ascii| |].
    { left. split; [exists "words"%string; cbn; auto|].
      assert (G : call_good loc s (fn_words pa loc r)).
      { unfold fn_words. eapply argument_one with (u := u); eauto.
        - destruct K; lia.
        - intros. eapply C_words; eauto.
        - intros a C. inversion C; subst; try clash.
          + rewrite (begins_fun _ _ _ _ Bu H). eauto.
          + contradiction. }
      destruct (fn_words pa loc r) as [[| |]| |]; cbn in *; auto. contradiction. }
    cbn [bind]. destruct (func_entry_good "word" (fn_word pa) loc s W) as [(B3 & r & u & -> & K & Bu & M)|(B3 & ->)]; [now apply lit_ascii| |].
    { left. split; [exists "word"%string; cbn; auto 8|].
      assert (G : call_good loc s (fn_word pa loc r)).
      { eapply word_good with (u := u); eauto.
        - destruct K; lia.
        - intros. eapply C_word; eauto.
        - intros a C. inversion C; subst; try clash.
          + exfalso. apply B2. eexists; eauto.
          + rewrite (begins_fun _ _ _ _ Bu H). eauto 20. }
      destruct (fn_word pa loc r) as [[| |]| |]; cbn [call_good bind] in *; auto; try contradiction. }
    right. split; [|reflexivity]. cbn. intros k [<-|[<-|[<-|[<-|[]]]]]; auto.
  Qed.

  Lemma calls_begins : forall (w : Prop) l t a, calls w l t a -> exists k, In k function_names /\ begins_with k t.
  Proof.
    intros w l t a H. inversion H; subst; [exists "eval"%string|exists "strip"%string|exists "words"%string|exists "word"%string];
      (split; [cbn; auto 6|eexists; eassumption]).
  Qed.

  Lemma advanced_var_good : forall loc o c s, wf_span s -> (whole -> tidy s) -> sp_len s <= bound -> o <> c ->
    match advanced_var pa loc o c s with
    | Ok (POk r a) => keeps s r /\ exists inner rest, group o c (span_marks s) inner rest /\
        ((calls whole loc inner a /\ sp_len r = 0) \/
         ((forall k, In k function_names -> ~ begins_with k inner) /\ span_marks r = rest /\
          exists a', reads_ast whole inner a' /\ a = AVar loc a'))
    | Ok (PError _) => False
    | Ok (PFailure ks) => other_failure ks /\ forall inner rest, group o c (span_marks s) inner rest ->
        (forall a, ~ calls False loc inner a) /\ ((forall k, In k function_names -> ~ begins_with k inner) -> forall a, ~ reads_ast False inner a)
    | Panic => ~ flat s
    | OutOfFuel => False
    end.
  Proof.
    intros loc o c s W Td L N. unfold advanced_var. rewrite (indices_marks s W). cbn [fst snd].
    pose proof (find_balance_ok o c N (span_marks s) 0 0) as B. pose proof (span_marks_len s W) as Ls.
    destruct (find_balance _ _ _ _ _) as [[i|]| |]; try contradiction; cbn [bind].
    2: { cbn. split; [reflexivity|]. intros inner rest G. exfalso. eapply opened_no_group; eauto. }
    destruct B as (inner & x & rest & E & X & -> & O & Q). cbn [plus] in *.
    assert (Li : List.length inner + 1 <= sp_len s) by (rewrite <- Ls, E, app_length; cbn; lia).
    destruct (take_split_sub s _ W Li) as (r & p & T & Sr & Sp). rewrite T. cbn [bind].
    assert (sp_len p = List.length inner + 1) as Lp by apply Sp. rewrite Lp, usub_ok by lia. cbn [bind].
    replace (List.length inner + 1 - 1) with (List.length inner) by lia.
    assert (Sn : sub p 0 (List.length inner) (slice_to p (List.length inner))) by (apply slice_to_sub; [apply Sp|lia]).
    set (nn := slice_to p (List.length inner)) in *. pose proof (sub_sub _ _ _ _ _ _ _ Sp Sn) as Snn. cbn [plus] in Snn.
    assert (Mn : span_marks nn = inner).
    { rewrite (sub_marks_firstn _ _ _ _ Snn), E. cbn [skipn]. rewrite firstn_app, firstn_all, Nat.sub_diag, firstn_O. apply app_nil_r. }
    assert (Mr : span_marks r = rest).
    { rewrite (sub_end _ _ _ W Sr), E. rewrite skipn_app.
      replace (List.length inner + 1 - List.length inner) with 1 by lia. rewrite skipn_all2 by lia. reflexivity. }
    assert (G : group o c (span_marks s) inner rest) by (split; [exact O|]; split; [exact Q|]; exists x; auto).
    pose proof (sub_keeps _ _ _ _ Snn) as Kn. assert (Ln : sp_len nn < bound).
    { destruct Snn as (_ & _ & Z & _). rewrite Z. lia. }
    destruct (function_call_good loc nn (proj1 Kn) (keeps_whole _ _ _ Td Kn) Ln) as [((k & Ik & Bk) & Gc)|(Nk & ->)].
    - rewrite Mn in Bk. destruct (function_call pa loc nn) as [[r2 a|ks|ks]| |]; cbn [bind] in *.
      + destruct Gc as (K2 & Z & C). rewrite Mn in C. split; [eapply keeps_trans; eauto|]. exists inner, rest. auto.
      + contradiction.
      + destruct Gc as (F & C). rewrite Mn in C. unfold other_failure in F. rewrite F. split; [exact F|].
        intros i2 r2 G2. destruct (group_unique _ _ _ _ _ _ _ N G G2) as (<- & <-). split; [exact C|].
        intros H. exfalso. eapply H; eauto.
      + intros F. apply Gc, Kn, F.
      + contradiction.
    - cbn [bind]. change (is_not_a_function_call (error_kind [KCustom (InternalFailure not_a_function_call)])) with true. cbn iota.
      rewrite Mn in Nk. pose proof (Hpa nn (proj1 Kn) (keeps_whole _ _ _ Td Kn) Ln) as P. destruct (pa nn) as [[r2 a|ks|ks]| |]; cbn [pbind bind pok] in *.
      + destruct P as (_ & _ & R). rewrite Mn in R. split; [eapply sub_keeps; eauto|]. exists inner, rest. split; [exact G|].
        right. ands; eauto.
      + contradiction.
      + destruct P as (F & R). rewrite Mn in R. split; [exact F|]. intros i2 r2 G2.
        destruct (group_unique _ _ _ _ _ _ _ N G G2) as (<- & <-). split; [|auto].
        intros a C. apply calls_begins in C as (k & I & Bk). eapply Nk; eauto.
      + intros F. apply P, Kn, F.
      + contradiction.
  Qed.

  Lemma not_in_singles : forall c, c <> dollar -> c <> open_paren -> c <> close_brace -> ~ In c [dollar; open_paren; close_brace].
  Proof. intros c A B C H. cbn in H. intuition congruence. Qed.

  Lemma parse_var_ref_good : forall d s, fst d = dollar -> wf_span s -> (whole -> tidy s) -> sp_len s < bound ->
    match parse_var_ref pa (snd d) s with
    | Ok (POk r a) => keeps s r /\ (forall ns, reads whole (span_marks r) ns -> reads whole (d :: span_marks s) (a :: ns)) /\
        (forall ns, reads False (d :: span_marks s) ns -> exists ns', reads False (span_marks r) ns')
    | Ok (PError _) => False
    | Ok (PFailure ks) => other_failure ks /\ forall ns, ~ reads False (d :: span_marks s) ns
    | Panic => ~ flat s
    | OutOfFuel => False
    end.
  Proof.
    intros d s D W Td L. unfold parse_var_ref. cbn [palt]. unfold pmap at 1, peof. pose proof (span_marks_len s W) as Ls.
    destruct (Nat.eqb_spec (sp_len s) 0) as [Z|Z].
    { cbn. assert (span_marks s = []) as -> by (apply length_zero_iff_nil; lia). split; [eapply sub_keeps, sub_refl, W|]. split.
      - intros ns R. inversion R; subst.
        + now apply R_last.
        + exfalso. destruct t; [congruence|discriminate].
      - intros ns _. exists []. constructor. }
    cbn [pbind bind perror].
    destruct (span_marks s) as [|c t] eqn:M; [cbn in Ls; lia|].
    assert (Mt : span_text s = fst c :: List.map fst t) by (rewrite span_text_marks, M; reflexivity).
    assert (T1 : forall n r p, sub s n (sp_len s - n) r -> n = 1 -> sub s 0 n p -> span_marks p = [c] /\ span_marks r = t).
    { intros n r p Sr -> Sp. rewrite (sub_marks_firstn _ _ _ _ Sp), (sub_end _ _ _ W Sr), M. auto. }
    pose proof (tag_ok s [c_dollar] W ltac:(repeat constructor)) as T. rewrite Mt in T. cbn [starts_with] in T.
    rewrite andb_true_r in T. change c_dollar with dollar in *.
    destruct (N.eqb_spec dollar (fst c)) as [Dc|Dc].
    { destruct T as (r & p & -> & Sr & Sp & _). cbn [pbind bind]. destruct (T1 _ r p Sr eq_refl Sp) as (Mp & Mr).
      pose proof (first_segment_one p c (sub_wf _ _ _ _ Sp) Mp) as F. destruct (first_segment p); cbn [bind pok]; [|intros X; apply F; eapply flat_sub; eauto|contradiction].
      subst a. rewrite <- Dc. split; [eapply sub_keeps; eauto|]. rewrite Mr. split.
      - intros ns R. apply R_dollar; auto.
      - intros ns R. apply reads_dollar_inv in R; [|exact D].
        destruct R as [(E & _)|[(c' & u & ns' & E & _ & R & _)|[(c' & u & ns' & E & X & _)|[(b & o & cc & u & i & re & a & ns' & E & X & _)|(b & o & cc & u & i & re & a & E & X & _)]]]];
        try discriminate; injection E as <- <-.
        + eauto.
        + exfalso. apply X. rewrite <- Dc. cbn. auto.
        + exfalso. rewrite <- Dc in X. inversion X.
        + exfalso. rewrite <- Dc in X. inversion X. }
    rewrite T. cbn [pbind bind]. clear T.
    (* the two kinds of groups *)
    assert (ADV : forall b o cl r1, fst c = b -> opens b o cl -> sub s 1 (sp_len s - 1) r1 ->
      match advanced_var pa (snd d) o cl r1 with
      | Ok (POk r a) => keeps s r /\ (forall ns, reads whole (span_marks r) ns -> reads whole (d :: c :: t) (a :: ns)) /\
          (forall ns, reads False (d :: c :: t) ns -> exists ns', reads False (span_marks r) ns')
      | Ok (PError _) => False
      | Ok (PFailure ks) => other_failure ks /\ forall ns, ~ reads False (d :: c :: t) ns
      | Panic => ~ flat s
      | OutOfFuel => False
      end).
    { intros b o cl r1 Eb Op S1. subst b. destruct (opens_ne _ _ _ Op) as (Ne & _). pose proof (sub_keeps _ _ _ _ S1) as K1.
      assert (M1 : span_marks r1 = t) by (rewrite (sub_end _ _ _ W S1), M; reflexivity).
      assert (L1 : sp_len r1 <= bound) by (destruct K1; lia).
      pose proof (advanced_var_good (snd d) o cl r1 (proj1 K1) (keeps_whole _ _ _ Td K1) L1 Ne) as A. rewrite M1 in A.
      assert (INV : forall ns, reads False (d :: c :: t) ns ->
        (exists inner rest a ns', group o cl t inner rest /\ (forall k, In k function_names -> ~ begins_with k inner) /\
          reads_ast False inner a /\ reads False rest ns') \/
        (exists inner rest a, group o cl t inner rest /\ calls False (snd d) inner a)).
      { intros ns R. apply reads_dollar_inv in R; [|exact D].
        destruct R as [(E & _)|[(c' & u & ns' & E & X & _)|[(c' & u & ns' & E & X & _)|[(b & o' & cc & u & i & re & a & ns' & E & X & G & H1 & H2 & H3 & _)|(b & o' & cc & u & i & re & a & E & X & G & H1 & _)]]]];
        try discriminate; injection E as <- <-.
        - congruence.
        - exfalso. apply X. inversion Op; cbn; auto.
        - destruct (opens_fun _ _ _ _ _ Op X) as (-> & ->). left. eauto 10.
        - destruct (opens_fun _ _ _ _ _ Op X) as (-> & ->). right. eauto 10. }
      destruct (advanced_var pa (snd d) o cl r1) as [[r a|ks|ks]| |].
      - destruct A as (Kr & inner & rest & G & [(C & Zr)|(H & Mr & a' & Ra & ->)]).
        + assert (span_marks r = []) as Mr by (apply length_zero_iff_nil; rewrite span_marks_len; [exact Zr|apply Kr]).
          rewrite Mr. split; [eapply keeps_trans; eauto|]. split.
          * intros ns R. inversion R; subst; [eapply R_call; eauto|]. exfalso. destruct t0; [congruence|discriminate].
          * intros ns _. exists []. constructor.
        + split; [eapply keeps_trans; eauto|]. rewrite Mr. split.
          * intros ns R. eapply R_var; eauto.
          * intros ns R. apply INV in R as [(i2 & r2 & a2 & ns' & G2 & _ & _ & R)|(i2 & r2 & a2 & G2 & C)];
              destruct (group_unique _ _ _ _ _ _ _ Ne G G2) as (<- & <-); [eauto|].
            exfalso. apply calls_begins in C as (k & I & Bk). eapply H; eauto.
      - contradiction.
      - destruct A as (F & A). split; [exact F|]. intros ns R.
        apply INV in R as [(i2 & r2 & a2 & ns' & G2 & H & Ra & R)|(i2 & r2 & a2 & G2 & C)]; destruct (A _ _ G2) as (A1 & A2).
        + eapply A2; eauto.
        + eapply A1; eauto.
      - intros F. apply A, K1, F.
      - contradiction. }
    unfold preceded. pose proof (pchar_ok s c_lparen W eq_refl) as T. rewrite Mt in T. change c_lparen with open_paren in *.
    destruct (N.eqb_spec (fst c) open_paren) as [Dp|Dp].
    { destruct T as (r1 & -> & S1 & _). cbn [pbind bind]. specialize (ADV open_paren open_paren close_paren r1 Dp O_paren S1).
      change c_rparen with close_paren.
      destruct (advanced_var pa (snd d) open_paren close_paren r1) as [[| |]| |]; cbn [bind]; auto. contradiction. }
    rewrite T. cbn [pbind bind]. clear T.
    pose proof (pchar_ok s c_rbrace W eq_refl) as T. rewrite Mt in T. change c_rbrace with close_brace in *.
    destruct (N.eqb_spec (fst c) close_brace) as [Db|Db].
    { destruct T as (r1 & -> & S1 & _). cbn [pbind bind]. specialize (ADV close_brace open_brace close_brace r1 Db O_brace S1).
      change c_lbrace with open_brace.
      destruct (advanced_var pa (snd d) open_brace close_brace r1) as [[| |]| |]; cbn [bind]; auto. contradiction. }
    rewrite T. cbn [pbind bind]. clear T ADV.
    pose proof (ptake_ok s 1 W) as T. destruct (Nat.leb_spec 1 (sp_len s)); [|lia]. destruct T as (r & p & -> & Sr & Sp).
    cbn [pbind bind]. destruct (T1 _ r p Sr eq_refl Sp) as (Mp & Mr).
    pose proof (first_segment_one p c (sub_wf _ _ _ _ Sp) Mp) as F. destruct (first_segment p); cbn [bind pok]; [|intros X; apply F; eapply flat_sub; eauto|contradiction].
    subst a. split; [eapply sub_keeps; eauto|]. rewrite Mr. split.
    - intros ns R. apply R_char; auto. apply not_in_singles; auto.
    - intros ns R. apply reads_dollar_inv in R; [|exact D].
      destruct R as [(E & _)|[(c' & u & ns' & E & X & _)|[(c' & u & ns' & E & X & R & _)|[(b & o & cc & u & i & re & a & ns' & E & X & _)|(b & o & cc & u & i & re & a & E & X & _)]]]];
      try discriminate; injection E as <- <-.
      + congruence.
      + eauto.
      + exfalso. inversion X; congruence.
      + exfalso. inversion X; congruence.
  Qed.

  Lemma until_dollar_good : forall s, wf_span s ->
    match until_dollar s with
    | Ok (POk r (start, Some l)) => keeps s r /\ keeps s start /\ sp_len r < sp_len s /\ ~ has fst dollar (span_marks start) /\
        exists d, fst d = dollar /\ snd d = l /\ span_marks s = span_marks start ++ d :: span_marks r
    | Ok (POk r (start, None)) => keeps s r /\ start = s /\ sp_len r = 0 /\ ~ has fst dollar (span_marks s)
    | Ok _ => False
    | Panic => ~ flat s
    | OutOfFuel => False
    end.
  Proof.
    intros s W. unfold until_dollar. cbn [palt]. change c_dollar with dollar.
    pose proof (take_until_ok s dollar W eq_refl) as T. destruct (index_of (is_char dollar) (span_text s)) as [n|] eqn:I.
    - destruct T as (r & p & -> & Sr & Sp & Ln). cbn [pbind bind].
      apply index_of_Some in I as (Ln' & Fp & c & post & E & C). apply N.eqb_eq in C. subst c.
      pose proof (sub_end _ _ _ W Sr) as Mr. pose proof (tag_ok r [dollar] (sub_wf _ _ _ _ Sr) ltac:(repeat constructor)) as T.
      assert (Tr : span_text r = dollar :: post) by (rewrite span_text_marks, Mr, <- map_skipn, <- span_text_marks in *; auto).
      rewrite Tr in T. cbn [starts_with] in T. rewrite N.eqb_refl in T. destruct T as (r2 & q & -> & Sr2 & Sq & _). cbn [pbind bind].
      destruct (span_marks r) as [|d t] eqn:Md; [rewrite span_text_marks, Md in Tr; discriminate|].
      assert (Dd : fst d = dollar) by (rewrite span_text_marks, Md in Tr; injection Tr; auto).
      assert (Mq : span_marks q = [d]) by (rewrite (sub_marks_firstn _ _ _ _ Sq), Md; reflexivity).
      pose proof (location_cases q (sub_wf _ _ _ _ Sq)) as LC. rewrite Mq in LC. cbn in LC.
      destruct (span_location q) as [l| |]; cbn [bind]; [|intros F; apply LC; exact (flat_sub _ _ _ _ (flat_sub _ _ _ _ F Sr) Sq)|contradiction].
      subst l. cbn [unwrap bind pok]. split; [eapply keeps_trans; [exact (sub_keeps _ _ _ _ Sr)|exact (sub_keeps _ _ _ _ Sr2)]|]. split; [eapply sub_keeps; eauto|].
      split; [destruct Sr as (_ & _ & Z & _); destruct Sr2 as (_ & _ & Z2 & _); rewrite Z2, Z; cbn; lia|]. split.
      + intros H. apply (sub_text _ _ _ _) in Sp as Tp. destruct H as (a & Ia & Ea).
        assert (In (fst a) (span_text p)) as Ip by (rewrite span_text_marks; now apply in_map).
        rewrite Tp in Ip. cbn [skipn] in Ip. rewrite Forall_forall in Fp. specialize (Fp _ Ip). rewrite Ea in Fp. discriminate.
      + exists d. ands; auto. rewrite (sub_marks_firstn _ _ _ _ Sp), (sub_end _ _ _ (sub_wf _ _ _ _ Sr) Sr2), Md. cbn [skipn List.length].
        rewrite <- (firstn_skipn n (span_marks s)) at 1. rewrite <- Mr. reflexivity.
    - rewrite T. cbn [pbind bind]. unfold pmap. destruct (prest_ok s W) as (r & -> & Sr). cbn [pbind bind pok].
      split; [eapply sub_keeps; eauto|]. split; [reflexivity|]. split; [apply Sr|].
      apply index_none. now rewrite <- span_text_marks.
  Qed.

  Lemma parse_loop_good : forall fuel s acc, wf_span s -> (whole -> tidy s) -> sp_len s < fuel -> sp_len s <= bound ->
    match parse_ast_loop pa fuel s acc with
    | Ok (POk r l) => keeps s r /\ sp_len r = 0 /\ exists ns, l = acc ++ ns /\ reads whole (span_marks s) ns
    | Ok (PError _) => False
    | Ok (PFailure ks) => other_failure ks /\ forall ns, ~ reads False (span_marks s) ns
    | Panic => ~ flat s
    | OutOfFuel => False
    end.
  Proof.
    induction fuel as [|fuel IH]; intros s acc W Td L B; [lia|]. cbn [parse_ast_loop]. destruct (Nat.ltb_spec 0 (sp_len s)) as [P|P].
    2: { cbn. split; [exact (sub_keeps _ _ _ _ (sub_refl s W))|]. split; [lia|]. exists []. rewrite app_nil_r. split; [reflexivity|].
         assert (span_marks s = []) as -> by (apply length_zero_iff_nil; rewrite span_marks_len; [lia|exact W]). constructor. }
    pose proof (until_dollar_good s W) as U. destruct (until_dollar s) as [[r (start, [l|])|ks|ks]| |]; try contradiction; cbn [pbind bind fst snd].
    - destruct U as (Kr & Kst & Lr & Nd & d & D & <- & Ms).
      pose proof (constants_cases start (proj1 Kst)) as C. destruct (constants_of start) as [cs| |]; cbn [bind];
        [|intros F; apply C, Kst, F|contradiction].
      destruct C as (g & -> & Sp & Pt). pose proof (parse_var_ref_good d r D (proj1 Kr) (keeps_whole _ _ _ Td Kr) ltac:(lia)) as V.
      destruct (parse_var_ref pa (snd d) r) as [[r2 a|ks|ks]| |]; cbn [pbind bind].
      + destruct V as (K2 & V1 & V2). specialize (IH r2 (acc ++ List.map a_constant g ++ [a]) (proj1 K2) (keeps_whole _ _ _ (keeps_whole _ _ _ Td Kr) K2)).
        assert (sp_len r2 < fuel) as Lf by (destruct K2; lia). specialize (IH Lf ltac:(destruct K2; lia)).
        assert (K : keeps s r2) by exact (keeps_trans _ _ _ Kr K2).
        destruct (parse_ast_loop pa fuel r2 _) as [[r3 l|ks|ks]| |]; auto.
        * destruct IH as (K3 & Z & ns & -> & R). split; [exact (keeps_trans _ _ _ K K3)|]. split; [exact Z|].
          exists (List.map a_constant g ++ a :: ns). split; [now rewrite <- !app_assoc|]. rewrite Ms. apply reads_text; auto.
          intros w. split; [apply Pt; exact (keeps_whole _ _ _ Td Kst w)|]. intros c v Ec. now injection Ec as <- _.
        * destruct IH as (F & R). split; [exact F|]. intros ns X. rewrite Ms in X. apply reads_after_text in X as (ns' & X); [|exact Nd].
          apply V2 in X as (ns2 & X). eapply R; eauto.
        * intros F. apply IH, K, F.
      + contradiction.
      + destruct V as (F & V). split; [exact F|]. intros ns X. rewrite Ms in X. apply reads_after_text in X as (ns' & X); [|exact Nd].
        eapply V; eauto.
      + intros F. apply V, Kr, F.
      + contradiction.
    - destruct U as (Kr & -> & Z & Nd). pose proof (constants_cases s W) as C.
      destruct (constants_of s) as [cs| |]; cbn [bind]; [|exact C|contradiction]. destruct C as (g & -> & Sp & Pt). cbn.
      split; [exact Kr|]. split; [exact Z|]. exists (List.map a_constant g). split; [reflexivity|].
      pose proof (reads_text whole (span_marks s) g [] [] Nd Sp (fun w => conj (Pt (Td w)) (fun c v (e : [] = c :: v) => ltac:(discriminate e))) (R_nil whole)) as R. now rewrite !app_nil_r in R.
    - exact U.
  Qed.
End Parsers.

Lemma parse_ast_fuel_good : forall (whole : Prop) fuel s, wf_span s -> (whole -> tidy s) -> sp_len s < fuel -> parse_good whole s (parse_ast_fuel fuel s).
Proof.
  intros whole. induction fuel as [|fuel IH]; intros s W T L; [lia|]. cbn [parse_ast_fuel]. unfold parse_ast_step.
  pose proof (location_cases s W) as LC. destruct (span_location s) as [l| |]; cbn [bind]; [|exact LC|contradiction].
  subst l. destruct (span_marks s) as [|m t] eqn:M; cbn [hd_error option_map].
  - cbn. split; [eapply sub_keeps, sub_refl, W|]. split; [rewrite <- span_marks_len, M by exact W; reflexivity|]. rewrite M. constructor.
  - pose proof (parse_loop_good whole (parse_ast_fuel fuel) fuel IH (S (sp_len s)) s [] W T ltac:(lia) ltac:(lia)) as G.
    rewrite M in G. unfold parse_good. rewrite M. destruct (parse_ast_loop _ _ s []) as [[r l|ks|ks]| |]; cbn [pbind bind pok]; auto.
    + destruct G as (K & Z & ns & -> & R). ands; auto. now constructor.
    + destruct G as (F & G). split; [exact F|]. intros a X. inversion X; subst. eapply G; eauto.
Qed.

Lemma parse_ast_good : forall s, wf_span s -> parse_good (tidy s) s (parse_ast s).
Proof. intros s W. apply parse_ast_fuel_good; [exact W|auto|lia]. Qed.
