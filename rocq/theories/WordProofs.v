(** Proofs about the words of a rule line (C51). *)
From Coq Require Import String.
From Verif Require Import Base LocModel EvdModel NomModel AstModel ParseModel AstParseModel EngineModel
  EvdSpec DbSpec ParseSpec EvalSpec AstParseSpec EngineSpec MakeSpec WordSpec
  EvdProofs EvdProofs3 ParseProofs ParseProofs2 ParseProofs4 ParseProofs5 EvdProofs2 AstParseProofs AstParseProofs2 AstParseProofs3
  SafeProofs SafeProofs2 SafeProofs3 SafeProofs4 EngineProofs EngineProofs2 EngineProofs3 MakeProofs MakeProofs2 MakeProofs3 MakeProofs4 MakeProofs6.
Local Open Scope nat_scope.

(** * Braces *)
Definition from (k : nat) (o c : char) (a : text) : Prop :=
  (forall p q, a = p ++ q -> count c p <= k + count o p) /\ k + count o a = count c a.

Lemma skip_any : forall o c, o <> c -> forall t k h stop,
  (exists a x u, t = a ++ x :: u /\ fst x = c /\ from k o c a /\
    skip_braces o c (Datatypes.S k) stop (num h t) false = Ok (h + List.length a + 1, num (h + List.length a + 1) u)) \/
  ((forall a x u, t = a ++ x :: u -> fst x = c -> ~ from k o c a) /\
    skip_braces o c (Datatypes.S k) stop (num h t) false = Ok (match t with [] => stop | _ => h + List.length t end, [])).
Proof.
  intros o c OC. induction t as [|y t IH]; intros k h stop.
  - right. split; [|reflexivity]. intros a x u E. destruct a; discriminate.
  - rewrite num_cons. cbn [skip_braces].
    assert (Step : forall k' st, (if (fst y =? c)%N then 1 else 0) + k' = k + (if (fst y =? o)%N then 1 else 0) -> st = h + 1 ->
      ((fst y = c -> k <> 0) ->
      (exists a x u, y :: t = a ++ x :: u /\ fst x = c /\ from k o c a /\
        skip_braces o c (Datatypes.S k') st (num (Datatypes.S h) t) false = Ok (h + List.length a + 1, num (h + List.length a + 1) u)) \/
      ((forall a x u, y :: t = a ++ x :: u -> fst x = c -> ~ from k o c a) /\
        skip_braces o c (Datatypes.S k') st (num (Datatypes.S h) t) false = Ok (h + Datatypes.S (List.length t), [])))).
    { intros k' st K St Z. destruct (IH k' (Datatypes.S h) st) as [(a & x & u & -> & X & (F1 & F2) & E)|(N & E)].
      - left. exists (y :: a), x, u. split; [reflexivity|]. split; [exact X|]. split.
        + split; [|rewrite !count_cons; lia]. intros [|y' p] q Q; [cbn; lia|]. cbn in Q. injection Q as <- Q. specialize (F1 p q Q). rewrite !count_cons. lia.
        + rewrite E. cbn [List.length]. f_equal. f_equal; [lia|f_equal; lia].
      - right. split.
        + intros [|y' a] x u Q X (F1 & F2).
          * cbn in Q. injection Q as -> ->. cbn in F2. apply (Z X). lia.
          * cbn in Q. injection Q as <- Q. apply (N a x u Q X). split.
            -- intros p q P. specialize (F1 (y :: p) q ltac:(cbn; now rewrite P)). rewrite !count_cons in F1. lia.
            -- rewrite !count_cons in F2. lia.
        + rewrite E. subst st. destruct t; cbn [List.length]; f_equal; f_equal; lia. }
    cbn [List.length].
    destruct (N.eqb_spec (fst y) o) as [E|E].
    { apply Step; [|reflexivity|congruence]. rewrite E. destruct (N.eqb_spec o c); [contradiction|]. lia. }
    destruct (N.eqb_spec (fst y) c) as [E2|E2].
    { destruct k as [|k]; [|apply Step; [lia|reflexivity|discriminate]].
      left. exists [], y, t. split; [reflexivity|]. split; [exact E2|]. split; [split; [|reflexivity]|].
      - intros p q Q. symmetry in Q. apply app_eq_nil in Q as (-> & ->). cbn. lia.
      - cbn. f_equal. f_equal; [lia|f_equal; lia]. }
    apply Step; [lia|reflexivity|congruence].
Qed.

(** * Words *)
Lemma letter_dec : forall c, is_alphabetic c = true <-> letter c.
Proof.
  intros c. unfold is_alphabetic, letter. rewrite orb_true_iff, !andb_true_iff, !N.leb_le. tauto.
Qed.

Lemma scan_bslash : forall fuel i l st st' r p p', mword_scan fuel ((i, c_bslash) :: l) false st r p = mword_scan fuel ((i, c_bslash) :: l) false st' r p'.
Proof. intros [|fuel]; reflexivity. Qed.

Definition previous (p : option char) : char := match p with Some c => c | None => 0%N end.

Lemma drive_dec : forall p t i, drive p t <->
  match num i t with (j, c) :: _ => (j =? i) && (c =? c_bslash)%N && is_alphabetic (previous p) | [] => false end = true.
Proof.
  intros p t i. unfold drive, begins_char. destruct t as [|d t].
  - cbn. split; [intros (_ & a & u & E & _); discriminate|discriminate].
  - rewrite num_cons, Nat.eqb_refl, andb_true_l, andb_true_iff, N.eqb_eq. split.
    + intros ((q & -> & Q) & a & u & E & A). injection E as <- <-. split; [exact A|]. apply letter_dec. exact Q.
    + intros (A & B). split; [|exists d, t; auto]. destruct p as [q|]; [|discriminate]. exists q. split; [reflexivity|]. apply letter_dec. exact B.
Qed.

Lemma quotable_dec : forall c, ((c =? c_colon) || (c =? c_semi) || (c =? c_eq) || (c =? c_bslash))%N = true <-> quotable c.
Proof.
  intros c. unfold quotable. rewrite !orb_true_iff, !N.eqb_eq. cbn. unfold c_colon, c_semi, c_eq, c_bslash.
  intuition (subst; auto).
Qed.

Lemma scan_follows : forall fuel t h stop p dyn, List.length t < fuel -> (t = [] -> stop = h) ->
  exists w rest e, word p dyn t w rest e /\ t = w ++ rest /\
    mword_scan fuel (num h t) false stop (kind dyn) (previous p) = Ok (h + List.length w, e).
Proof.
  induction fuel as [|fuel IH]; intros t h stop p dyn L St; [lia|].
  destruct t as [|c t].
  { exists [], [], (kind dyn). split; [constructor|]. split; [reflexivity|]. cbn. rewrite (St eq_refl). f_equal. f_equal. lia. }
  rewrite num_cons. cbn [mword_scan]. cbn [List.length] in L.
  (* the character is taken and the scan goes on *)
  assert (Go : forall q st, (t = [] -> st = h + 1) -> exists w rest e, word q dyn t w rest e /\ c :: t = (c :: w) ++ rest /\
    mword_scan fuel (num (Datatypes.S h) t) false st (kind dyn) (previous q) = Ok (h + List.length (c :: w), e)).
  { intros q st S2. destruct (IH t (Datatypes.S h) st q dyn) as (w & rest & e & W & E & Sc); [lia|intros N; rewrite (S2 N); lia|].
    exists w, rest, e. split; [exact W|]. split; [cbn; now rewrite <- E|]. rewrite Sc. cbn [List.length]. f_equal. f_equal. lia. }
  destruct ((fst c =? c_space) || (fst c =? c_tab) || (fst c =? c_eq))%N eqn:Q1.
  { exists [], (c :: t), MwStatic. split; [|split; [reflexivity|cbn; f_equal; f_equal; lia]]. constructor.
    unfold blank. rewrite !orb_true_iff, !N.eqb_eq in Q1. destruct Q1 as [[-> | ->]| ->]; auto. }
  apply orb_false_iff in Q1 as (Q1 & Neq). assert (B : blank (fst c) = false) by exact Q1.
  destruct (fst c =? c_colon)%N eqn:Q2.
  { apply N.eqb_eq in Q2. pose proof (drive_dec p t (Datatypes.S h)) as D.
    assert (Dr : exists d : bool, (drive p t <-> d = true) /\
      (let* p1 := peek (num (Datatypes.S h) t) false in
       let dos := match p1 with Some (j, c0) => (j =? h + 1) && (c0 =? c_bslash)%N && is_alphabetic (previous p) | None => false end in
       if dos then mword_scan fuel (num (Datatypes.S h) t) false (h + 1) (kind dyn) (previous p) else Ok (h + 1, kind dyn)) =
      (if d then mword_scan fuel (num (Datatypes.S h) t) false (h + 1) (kind dyn) (previous p) else Ok (h + 1, kind dyn))).
    { exists (match num (Datatypes.S h) t with (j, c) :: _ => (j =? Datatypes.S h) && (c =? c_bslash)%N && is_alphabetic (previous p) | [] => false end).
      split; [exact D|]. rewrite Nat.add_comm. destruct (num (Datatypes.S h) t) as [|[j d] l]; reflexivity. }
    destruct Dr as ([|] & Dr & Eq).
    - assert (Dp : drive p t) by (apply Dr; reflexivity). destruct (Go (Some colon) (h + 1) (fun _ => eq_refl)) as (w & rest & e & W & E & Sc).
      exists (c :: w), rest, e. split; [apply W_drive; assumption|]. split; [exact E|]. etransitivity; [exact Eq|]. rewrite <- Sc.
      destruct Dp as (_ & a & u & -> & Ea). rewrite num_cons, Ea. apply scan_bslash.
    - exists [c], t, (kind dyn). split; [apply W_colon; [exact Q2|]|split; [reflexivity|exact Eq]]. intros Dp. apply Dr in Dp. discriminate. }
  destruct (fst c =? c_dollar)%N eqn:Q3.
  { apply N.eqb_eq in Q3. destruct t as [|y t].
    - cbn. exists [c], [], MwStatic. split; [constructor; exact Q3|]. split; [reflexivity|]. reflexivity.
    - rewrite num_cons. cbn [peek bind tl]. cbn [List.length] in L.
      assert (Go2 : forall q d2 st, st = Datatypes.S h + 1 -> exists w rest e, word q d2 t w rest e /\ c :: y :: t = (c :: y :: w) ++ rest /\
        mword_scan fuel (num (Datatypes.S (Datatypes.S h)) t) false st (kind d2) (previous q) = Ok (h + List.length (c :: y :: w), e)).
      { intros q d2 st ->. destruct (IH t (Datatypes.S (Datatypes.S h)) (Datatypes.S h + 1) q d2) as (w & rest & e & W & E & Sc); [lia|intros _; lia|].
        exists w, rest, e. split; [exact W|]. split; [cbn; now rewrite <- E|]. rewrite Sc. cbn [List.length]. f_equal. f_equal. lia. }
      destruct (fst y =? c_dollar)%N eqn:R1.
      { apply N.eqb_eq in R1. destruct (Go2 (Some dollar) dyn _ eq_refl) as (w & rest & e & W & E & Sc). exists (c :: y :: w), rest, e.
        split; [apply W_dollar; assumption|]. split; [exact E|]. rewrite <- Sc, R1. reflexivity. }
      assert (Br : forall o cl, In (o, cl) [(open_paren, close_paren); (open_brace, close_brace)] -> fst y = o ->
        exists w rest e, word p dyn (c :: y :: t) w rest e /\ c :: y :: t = w ++ rest /\
          (let* '(stop0, l) := skip_braces o cl 1 (Datatypes.S h + 1) (num (Datatypes.S (Datatypes.S h)) t) false in mword_scan fuel l false stop0 MwVariable cl)
          = Ok (h + List.length w, e)).
      { intros o cl I Y. assert (OC : o <> cl) by (destruct I as [[= <- <-]|[[= <- <-]|[]]]; discriminate).
        destruct (skip_any o cl OC t 0 (Datatypes.S (Datatypes.S h)) (Datatypes.S h + 1)) as [(a & x & u & -> & X & (F1 & F2) & E)|(N & E)]; rewrite E; cbn [bind].
        - destruct (IH u (Datatypes.S (Datatypes.S h) + List.length a + 1) (Datatypes.S (Datatypes.S h) + List.length a + 1) (Some cl) true) as (w & rest & e & W & Eu & Sc);
            [rewrite app_length in L; cbn in L; lia|reflexivity|].
          exists (c :: y :: a ++ x :: w), rest, e. split; [eapply W_group; try eassumption; reflexivity|]. split; [cbn; rewrite <- app_assoc; cbn; now rewrite Eu|].
          cbn [kind previous] in Sc. rewrite Sc. cbn [List.length]. rewrite app_length. cbn [List.length]. f_equal. f_equal. lia.
        - exists (c :: y :: t), [], MwVariable. split.
          + eapply W_open; try eassumption. intros inner rest (O & A & x & X & Et). apply (N inner x rest Et X). split; [exact O|exact A].
          + split; [now rewrite app_nil_r|]. destruct fuel as [|fuel]; [lia|]. cbn. destruct t; f_equal; f_equal; cbn; lia. }
      destruct (fst y =? c_lparen)%N eqn:R2; [apply N.eqb_eq in R2; apply Br; [now left|exact R2]|].
      destruct (fst y =? c_lbrace)%N eqn:R3; [apply N.eqb_eq in R3; apply Br; [right; now left|exact R3]|].
      destruct (Go2 (Some (fst y)) true _ eq_refl) as (w & rest & e & W & E & Sc). exists (c :: y :: w), rest, e.
      split; [|split; [exact E|exact Sc]]. apply W_char_ref; [exact Q3| |exact W].
      apply N.eqb_neq in R1, R2, R3. cbn. unfold c_dollar, c_lparen, c_lbrace in *. intuition congruence. }
  destruct (fst c =? c_bslash)%N eqn:Q4.
  { apply N.eqb_eq in Q4. rewrite Q4.
    assert (Bs : (forall y u, t = y :: u -> ~ quotable (fst y)) -> exists w rest e, word p dyn (c :: t) w rest e /\ c :: t = w ++ rest /\
      mword_scan fuel (num (Datatypes.S h) t) false (h + 1) (kind dyn) c_bslash = Ok (h + List.length w, e)).
    { intros N. destruct (Go (Some c_bslash) (h + 1) (fun _ => eq_refl)) as (w & rest & e & W & E & Sc). exists (c :: w), rest, e.
      split; [apply W_backslash; assumption|]. split; [exact E|exact Sc]. }
    destruct t as [|y t]; [apply Bs; intros y u E; discriminate|].
    rewrite num_cons in Bs |- *. cbn [peek bind tl].
    destruct ((fst y =? c_colon) || (fst y =? c_semi) || (fst y =? c_eq) || (fst y =? c_bslash))%N eqn:R.
    - apply quotable_dec in R. destruct t as [|z t].
      + exists [c], [y], (kind dyn). split; [apply W_quoted_last; assumption|]. split; [reflexivity|]. destruct fuel; [cbn in L; lia|]. reflexivity.
      + destruct (IH (z :: t) (Datatypes.S (Datatypes.S h)) (h + 1) (Some (fst y)) dyn) as (w & rest & e & W & E & Sc); [cbn in *; lia|discriminate|].
        exists (c :: y :: w), rest, e. split; [apply W_quoted; try assumption; discriminate|]. split; [cbn; now rewrite <- E|].
        cbn [previous] in Sc. rewrite Sc. cbn [List.length]. f_equal. f_equal. lia.
    - apply Bs. intros y' u E Qy. injection E as <- <-. apply quotable_dec in Qy. congruence. }
  assert (NI : ~ In (fst c) [equals; colon; dollar; c_bslash]).
  { apply N.eqb_neq in Neq, Q2, Q3, Q4. cbn. unfold c_eq, c_colon, c_dollar, c_bslash in *. intuition congruence. }
  assert (Ch : (In (fst c) (lit "?+") -> ~ begins_char equals t) -> forall st, (t = [] -> st = h + 1) -> exists w rest e, word p dyn (c :: t) w rest e /\ c :: t = w ++ rest /\
      mword_scan fuel (num (Datatypes.S h) t) false st (kind dyn) (fst c) = Ok (h + List.length w, e)).
  { intros N st S2. destruct (Go (Some (fst c)) st S2) as (w & rest & e & W & E & Sc). exists (c :: w), rest, e.
    split; [apply W_char; assumption|]. split; [exact E|exact Sc]. }
  destruct ((fst c =? 63) || (fst c =? 43))%N eqn:Q5.
  - assert (In (fst c) (lit "?+")) as Iq. { apply orb_true_iff in Q5. rewrite !N.eqb_eq in Q5. cbn. intuition auto. }
    destruct t as [|d t]; [apply Ch; [intros _ (a & u & E & _); discriminate|reflexivity]|]. rewrite num_cons in Ch |- *. cbn [peek bind].
    destruct (fst d =? c_eq)%N eqn:R.
    + apply N.eqb_eq in R. exists [], (c :: d :: t), (kind dyn). split; [apply W_assign; assumption|]. split; [reflexivity|]. cbn. f_equal. f_equal. lia.
    + apply N.eqb_neq in R. apply Ch; [|discriminate]. intros _ (a & u & E & A). injection E as <- <-. exact (R A).
  - apply Ch; [|reflexivity]. intros Iq. exfalso. apply orb_false_iff in Q5 as (A & A'). apply N.eqb_neq in A, A'. cbn in Iq. intuition congruence.
Qed.

(** * The next word *)
Lemma begins_starts : forall k t, begins k t <-> starts_with (lit k) (chars t) = true.
Proof. intros k t. rewrite starts_with_iff. reflexivity. Qed.

Definition as_tag (x : string * mword_end) : parser (span * mword_end) := tag_as (lit (fst x), snd x).

Lemma alt_operator : forall s i t, wf_span i -> keeps s i -> span_marks i = t -> forall l before, word_operators = before ++ l ->
  (forall k e, In (k, e) before -> ~ begins k t) ->
  (exists r cap e w rest, palt (List.map as_tag l) i = Ok (POk r (cap, e)) /\ operator t w rest e /\ moves s cap w /\ moves s r rest) \/
  (palt (List.map as_tag l) i = Ok (PError [KNom]) /\ no_operator t).
Proof.
  intros s i t Wi K Mi. induction l as [|[k e] l IH]; intros before Eo N.
  - right. split; [reflexivity|]. rewrite app_nil_r in Eo. intros k e I. rewrite Eo in I. exact (N k e I).
  - cbn [List.map palt]. assert (A : asciis (lit k)).
    { assert (I : In (k, e) word_operators) by (rewrite Eo; apply in_or_app; right; now left). cbn in I.
      repeat (destruct I as [[= <- <-]|I]; [repeat constructor|]). contradiction. }
    pose proof (tag_ok i (lit k) Wi A) as T. rewrite span_text_marks, Mi in T. change (List.map mch t) with (chars t) in T.
    unfold as_tag at 1 3, tag_as, pmap. cbn [fst snd].
    destruct (starts_with (lit k) (chars t)) eqn:S.
    + destruct T as (r & p & T & Sr & Sp & _). rewrite T. cbn [pbind bind pok]. left.
      exists r, p, e, (firstn (List.length (lit k)) t), (skipn (List.length (lit k)) t). split; [reflexivity|]. split; [|split].
      * split; [symmetry; apply firstn_skipn|]. exists before, k, l. split; [exact Eo|]. split; [|exact N].
        apply begins_starts in S as (post & S). unfold chars. rewrite <- firstn_map. unfold chars in S. rewrite S, firstn_app, firstn_all, Nat.sub_diag. cbn. apply app_nil_r.
      * split; [eapply keeps_trans; [exact K|eapply sub_keeps; eassumption]|]. rewrite (proj1 (proj2 (proj2 (proj2 Sp)))), Mi. reflexivity.
      * split; [eapply keeps_trans; [exact K|eapply sub_keeps; eassumption]|]. rewrite (sub_end _ _ _ Wi Sr), Mi. reflexivity.
    + rewrite T. cbn [pbind bind]. apply (IH (before ++ [(k, e)])); [rewrite <- app_assoc; exact Eo|].
      intros k' e' I. apply in_app_or in I as [I|[[= <- <-]|[]]]; [exact (N k' e' I)|]. intros Bg. apply begins_starts in Bg. congruence.
Qed.

Lemma next_mword_cuts : forall s, wf_span s -> exists r cap e w rest,
  next_mword s = Ok (POk r (cap, e)) /\ cuts (lstrip fst (span_marks s)) w rest e /\ moves s cap w /\ moves s r rest.
Proof.
  intros s W. unfold next_mword. destruct (whitespace_keeps s W) as (i & q & E & K & Mi). rewrite E. cbn [pbind bind]. pose proof (proj1 K) as Wi.
  set (t := lstrip fst (span_marks s)) in *.
  match goal with |- context [palt ?l i] => change l with (List.map as_tag word_operators) end.
  destruct (alt_operator s i t Wi K Mi word_operators [] eq_refl) as [(r & cap & e & w & rest & P & O & Mc & Mr)|(P & N)]; [intros k e []| |]; rewrite P; cbn [bind].
  - exists r, cap, e, w, rest. split; [reflexivity|]. split; [left; exact O|]. auto.
  - rewrite (indices_marks i Wi). fold (num 0 (span_marks i)). rewrite Mi.
    destruct (scan_follows (Datatypes.S (List.length (num 0 t))) t 0 0 None false) as (w & rest & e & Wd & Et & Sc); [rewrite num_length; lia|reflexivity|].
    cbn [kind previous] in Sc. rewrite Sc. cbn [bind].
    assert (L : 0 + List.length w <= sp_len i) by (rewrite <- (span_marks_len i Wi), Mi, Et, app_length; lia).
    destruct (take_split_sub i _ Wi L) as (r & cap & Ts & Sr & Sc2). rewrite Ts. cbn [bind pok].
    exists r, cap, e, w, rest. split; [reflexivity|]. split; [right; auto|].
    split; (split; [eapply keeps_trans; [exact K|eapply sub_keeps; eassumption]|]).
    + eapply (sub_prefix i _ cap w rest Wi Sc2); [rewrite Mi; exact Et|lia].
    + eapply (sub_suffix i _ r w rest Wi Sr); [rewrite Mi; exact Et|lia].
Qed.

(** * There is only one way to cut *)
Lemma word_whole : forall p dyn t w rest e, word p dyn t w rest e -> t = w ++ rest.
Proof.
  intros p dyn t w rest e H. induction H; cbn; try reflexivity; try (rewrite app_nil_r; reflexivity); try (now f_equal; auto).
  - now rewrite IHword.
  - now rewrite IHword.
  - subst t. rewrite <- app_assoc. cbn. now rewrite IHword.
  - now rewrite IHword.
Qed.

Lemma word_det : forall p dyn t w rest e, word p dyn t w rest e -> forall w' rest' e', word p dyn t w' rest' e' -> w' = w /\ rest' = rest /\ e' = e.
Proof.
  assert (BE : forall c, blank c = true -> ~ In c [equals; colon; dollar; c_bslash; 63%N; 43%N]).
  { intros c B I. cbn in I. repeat (destruct I as [<-|I]; [discriminate|]). contradiction. }
  intros p dyn t w rest e H. induction H; intros w' rest' e' H'; inversion H'; subst; auto;
    try (exfalso; match goal with
      | A : blank (fst ?c) = true \/ fst ?c = equals |- _ => destruct A as [A|A]; [apply BE in A|]; unfold quotable, c_bslash in *; cbn in *; intuition congruence
      end).
  all: try (exfalso; unfold quotable, c_bslash in *; cbn in *; intuition congruence).
  all: try (match goal with IH : forall w' rest' e', word ?q ?d ?t w' rest' e' -> _, K : word ?q ?d ?t _ _ _ |- _ => destruct (IH _ _ _ K) as (-> & -> & ->); auto end).
  all: try (exfalso; match goal with N : forall y u, ?a :: ?t = y :: u -> ~ quotable _, Q : quotable (fst ?a) |- _ => exact (N a t eq_refl Q) end).
  all: try (exfalso; match goal with N : In (fst ?c) _ -> ~ begins_char equals (?d :: ?t), I : In (fst ?c) _ |- _ => apply (N I); exists d, t; auto end).
  all: assert (SC : forall a b b', In (a, b) [(open_paren, close_paren); (open_brace, close_brace)] -> In (a, b') [(open_paren, close_paren); (open_brace, close_brace)] -> b = b' /\ a <> b)
    by (clear; intros a b b' I I'; cbn in I, I'; destruct I as [[= <- <-]|[[= <- <-]|[]]]; destruct I' as [[= <-]|[[= <-]|[]]]; split; congruence).
  - destruct (SC _ _ _ H1 H12) as (Ez & Ne).
    assert (G : group (fst y) (fst z) (inner ++ z :: u) inner u) by (split; [assumption|split; [assumption|exists z; auto]]).
    assert (G' : group (fst y) (fst z) (inner ++ z :: u) inner0 u0) by (rewrite Ez; split; [assumption|split; [assumption|exists z0; auto]]).
    destruct (group_unique _ _ _ _ _ _ _ Ne G G') as (<- & <-). apply app_inv_head in H21. injection H21 as <-.
    destruct (IHword _ _ _ H22) as (-> & -> & ->). auto.
  - exfalso. match goal with N : forall i r, ~ group (fst y) ?c _ i r, J : In (fst y, ?c) _ |- _ => destruct (SC _ _ _ H1 J) as (Ez & Ne); apply (N inner u) end.
    rewrite <- Ez. split; [assumption|split; [assumption|exists z; auto]].
  - exfalso. match goal with N : forall i r, ~ group (fst y) ?c _ i r, J : In (fst y, ?c) _, J' : In (fst y, fst z) _ |- _ => destruct (SC _ _ _ J' J) as (Ez & Ne); apply (N inner u) end.
    rewrite <- Ez. split; [assumption|split; [assumption|exists z; auto]].
Qed.

Lemma operator_det : forall t w rest e w' rest' e', operator t w rest e -> operator t w' rest' e' -> w' = w /\ rest' = rest /\ e' = e.
Proof.
  intros t w rest e w' rest' e' (E & b & k & a & O & C & N) (E' & b' & k' & a' & O' & C' & N').
  assert (Bg : begins k t) by (exists (chars rest); rewrite E, <- C; unfold chars; apply map_app).
  assert (Bg' : begins k' t) by (exists (chars rest'); rewrite E', <- C'; unfold chars; apply map_app).
  assert (Eq : (k, e) = (k', e')).
  { rewrite O in O'. clear - O' N N' Bg Bg'. revert b' O' N N'. induction b as [|x b IH]; intros [|x' b'] O' N N'; cbn in O'; [congruence| | |]; injection O' as E O'.
    - exfalso. subst x'. apply (N' k e); [now left|exact Bg].
    - exfalso. subst x. apply (N k' e'); [now left|exact Bg'].
    - apply (IH b' O'); intros k0 e0 I; [apply (N k0 e0)|apply (N' k0 e0)]; now right. }
  injection Eq as -> ->. assert (List.length w = List.length w'). { rewrite <- C' in C. apply (f_equal (@List.length _)) in C. unfold chars in C. rewrite !map_length in C. exact C. }
  rewrite E in E'. clear - H E'. assert (w = w' /\ rest = rest') as (-> & ->); [|auto]. revert w' H E'. induction w as [|x w IH]; intros [|x' w'] L Q; try discriminate; [auto|].
  cbn in Q. injection Q as -> Q. destruct (IH w' ltac:(cbn in L; lia) Q) as (-> & ->). auto.
Qed.

Lemma cuts_det : forall t w rest e w' rest' e', cuts t w rest e -> cuts t w' rest' e' -> w' = w /\ rest' = rest /\ e' = e.
Proof.
  assert (X : forall t w rest e, operator t w rest e -> no_operator t -> False).
  { intros t w rest e (E & b & k & a & O & C & N) No. apply (No k e); [rewrite O; apply in_or_app; right; now left|].
    exists (chars rest). rewrite E, <- C. unfold chars. apply map_app. }
  intros t w rest e w' rest' e' [H|(N & H)] [H'|(N' & H')]; [eapply operator_det; eassumption|exfalso; eauto|exfalso; eauto|eapply word_det; eassumption].
Qed.

Lemma cuts_whole : forall t w rest e, cuts t w rest e -> t = w ++ rest.
Proof. intros t w rest e [(E & _)|(_ & H)]; [exact E|]. eapply word_whole. exact H. Qed.

Lemma cuts_some : forall t w rest e, cuts (lstrip fst t) w rest e -> lstrip fst t <> [] -> w <> [].
Proof.
  intros t w rest e C N ->. assert (B : forall c u, lstrip fst t = c :: u -> blank (fst c) = false).
  { clear. unfold lstrip. induction t as [|a t IH]; cbn; intros c u E; [discriminate|]. destruct (blank (fst a)) eqn:B; [eapply IH; exact E|]. injection E as <- _. exact B. }
  destruct C as [(E & b & k & a & O & Ck & _)|(No & W)].
  - cbn in Ck. assert (I : In (k, e) word_operators) by (rewrite O; apply in_or_app; right; now left). cbn in I.
    repeat (destruct I as [[= <- <-]|I]; [discriminate|]). contradiction.
  - revert B N W No. generalize (lstrip fst t). clear. intros u B N W No. inversion W; subst; try congruence.
    + match goal with X : _ \/ _ |- _ => destruct X as [X|X]; [specialize (B _ _ eq_refl); congruence|] end.
      apply (No "="%string MwVarAssign); [cbn; tauto|]. eexists. cbn. rewrite H. reflexivity.
    + match goal with X : In _ (lit "?+") |- _ => destruct X as [X|[X|[]]] end.
      * apply (No "?="%string MwVarAssign); [cbn; tauto|]. eexists. cbn. rewrite <- H. match goal with Y : fst d = _ |- _ => rewrite Y end. reflexivity.
      * apply (No "+="%string MwVarAssign); [cbn; tauto|]. eexists. cbn. rewrite <- H. match goal with Y : fst d = _ |- _ => rewrite Y end. reflexivity.
Qed.

Lemma cuts_all : forall t w rest e, cuts (lstrip fst t) w rest e -> lstrip fst t = w ++ rest /\ (lstrip fst t <> [] -> w <> []).
Proof. intros t w rest e C. split; [eapply cuts_whole; exact C|intros N; eapply cuts_some; eauto]. Qed.
Lemma next_mword_marks : forall s, wf_span s -> exists r cap e w rest,
  next_mword s = Ok (POk r (cap, e)) /\ cuts (lstrip fst (span_marks s)) w rest e /\ span_marks cap = w /\ span_marks r = rest.
Proof.
  intros s W. destruct (next_mword_cuts s W) as (r & cap & e & w & rest & E & C & (_ & A) & (_ & B)). exists r, cap, e, w, rest. auto.
Qed.
