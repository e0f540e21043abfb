(** Examples of statements. *)
From Coq Require Import String.
From Verif Require Import Base LocModel EvdModel AstModel EngineModel EvdSpec DbSpec ParseModel ParseSpec EvalSpec AstParseSpec EngineSpec MakeSpec
  ModelTests EvdProofs2 ParseProofs FuelProofs EvalProofs2 EvalProofs3 EvalProofs4 MakeRun EngineExamples WriteSpec WriteSubst WriteProofs6 WriteProofs7 WriteProofs8 ObjectSpec ObjectProofs.
Local Open Scope nat_scope.

(** * Checks *)
Definition in_range (c : char) (ab : N * N) : bool := ((fst ab <=? c) && (c <=? snd ab))%N.
Definition word_charb (c : char) : bool := existsb (in_range c) [(97, 122); (65, 90); (48, 57); (95, 95); (45, 47)]%N.
Lemma in_range_ok : forall c a b, in_range c (a, b) = true -> (a <= c <= b)%N.
Proof. intros c a b H. apply andb_prop in H as [A B]. apply N.leb_le in A, B. auto. Qed.
Lemma word_charb_ok : forall c, word_charb c = true -> word_char c.
Proof.
  intros c H. unfold word_charb in H. apply existsb_exists in H as ([a b] & I & H). apply in_range_ok in H. unfold word_char.
  cbn in I. repeat (destruct I as [I|I]; [injection I as <- <-; lia|]). destruct I.
Qed.
Definition ordinaryb (c : char) : bool := in_range c (32, 126)%N && negb (existsb (N.eqb c) [35; 36; 92]%N).
Lemma ordinaryb_ok : forall c, ordinaryb c = true -> ordinary c.
Proof.
  intros c H. apply andb_prop in H as [A B]. split; [apply in_range_ok; exact A|]. intros I. apply negb_true_iff in B. apply not_true_iff_false in B. apply B.
  apply existsb_exists. exists c. split; [exact I|apply N.eqb_refl].
Qed.
Definition unreservedb (s : str) : bool := negb (existsb (fun k => starts_with (lit k) (List.map ascii_lower s)) reserved).
Lemma unreservedb_ok : forall s, unreservedb s = true -> unreserved s.
Proof.
  intros s H k r I E. apply negb_true_iff in H. apply not_true_iff_false in H. apply H. apply existsb_exists. exists k. split; [exact I|].
  apply starts_with_iff. exists r. exact E.
Qed.
Lemma forallb_all : forall {A} (p : A -> bool) (P : A -> Prop) l, (forall a, p a = true -> P a) -> forallb p l = true -> Forall P l.
Proof. intros A p P l H F. rewrite forallb_forall in F. apply Forall_forall. auto. Qed.
Definition nameb (x : str) : bool := match x with [] => false | _ => forallb word_charb x && unreservedb x end.
Lemma nameb_ok : forall x, nameb x = true -> name x.
Proof.
  intros [|c x] H; [discriminate|]. apply andb_prop in H as [A B]. split; [discriminate|]. split; [eapply forallb_all; [exact word_charb_ok|exact A]|apply unreservedb_ok; exact B].
Qed.
Definition endingb (s : str) : bool := forallb (fun c => word_charb c || (c =? 37)%N) s.
Lemma endingb_ok : forall s, endingb s = true -> ending s.
Proof. intros s. apply forallb_all. intros c H. apply orb_prop in H as [H|H]; [left; apply word_charb_ok; exact H|right; apply N.eqb_eq; exact H]. Qed.
Definition made_ofb (p : char -> bool) (e : wexpr) : bool :=
  forallb (fun q =>
    match q with
    | Txt s => forallb p s
    | Ref x => nameb x
    | Dol => true
    | Sub x k r => nameb x && endingb k && endingb r && forallb p (lit ":" ++ k ++ lit "=" ++ r)
    end) e.
Lemma made_ofb_ok : forall (p : char -> bool) (P : char -> Prop) e, (forall c, p c = true -> P c) -> made_ofb p e = true -> made_of P e.
Proof.
  intros p P e H. apply forallb_all. intros [s|x| |x k r] E; [eapply forallb_all; eauto|apply nameb_ok; exact E|exact Logic.I|].
  apply andb_prop in E as [E F]. apply andb_prop in E as [E R]. apply andb_prop in E as [N K].
  split; [apply nameb_ok; exact N|]. split; [apply endingb_ok; exact K|]. split; [apply endingb_ok; exact R|eapply forallb_all; eauto].
Qed.
Definition computedb (x : wexpr) : bool := made_ofb word_charb x && match show x with [] => false | _ => true end && unreservedb (show x).
Lemma computedb_ok : forall x, computedb x = true -> computed x.
Proof.
  intros x H. apply andb_prop in H as [H U]. apply andb_prop in H as [M N]. split; [eapply made_ofb_ok; [exact word_charb_ok|exact M]|].
  split; [intros E; rewrite E in N; discriminate N|apply unreservedb_ok; exact U].
Qed.

Ltac is_name := apply nameb_ok; vm_compute; reflexivity.
Ltac is_names := repeat (apply Forall_cons; [is_name|]); apply Forall_nil.
Ltac is_made := eapply made_ofb_ok; [exact ordinaryb_ok|vm_compute; reflexivity].
Definition line_charb (c : char) : bool := (c <? 128)%N && negb (existsb (N.eqb c) [10; 35; 36]%N).
Lemma line_charb_ok : forall c, line_charb c = true -> line_char c.
Proof.
  intros c H. apply andb_prop in H as [A B]. split; [apply N.ltb_lt; exact A|]. intros I. apply negb_true_iff in B. apply not_true_iff_false in B. apply B.
  apply existsb_exists. exists c. split; [exact I|apply N.eqb_refl].
Qed.
Ltac is_value := split; [eapply made_ofb_ok; [exact line_charb_ok|vm_compute; reflexivity]|split; [vm_compute; reflexivity|cbn; first [exact Logic.I|split; discriminate]]].
Ltac is_plain := split; [eapply forallb_all; [exact line_charb_ok|vm_compute; reflexivity]|split; [vm_compute; reflexivity|cbn; first [exact Logic.I|split; discriminate]]].
Definition condb (c : char) : bool := ordinaryb c && negb (existsb (N.eqb c) [40; 41; 44]%N).
Lemma condb_ok : forall c, condb c = true -> ordinary c /\ ~ In c [40; 41; 44]%N.
Proof.
  intros c H. apply andb_prop in H as [A B]. split; [apply ordinaryb_ok; exact A|]. intros I. apply negb_true_iff in B. apply not_true_iff_false in B. apply B.
  apply existsb_exists. exists c. split; [exact I|apply N.eqb_refl].
Qed.
Definition depb (c : char) : bool := word_charb c || (c =? c_space)%N.
Lemma depb_ok : forall c, depb c = true -> dep_char c.
Proof. intros c H. apply orb_prop in H as [H|H]; [left; apply word_charb_ok; exact H|right; apply N.eqb_eq; exact H]. Qed.
Ltac is_cond := split; [eapply made_ofb_ok; [exact condb_ok|vm_compute; reflexivity]|cbn; first [exact Logic.I|discriminate]].
Ltac is_deps := split; [eapply made_ofb_ok; [exact depb_ok|vm_compute; reflexivity]|apply unreservedb_ok; vm_compute; reflexivity].
Lemma subst_by : forall k r ps, cut_substituted (fun c => c) c_space k r ps (substitute (fun c => c) c_space k r ps).
Proof. intros k r ps. apply substitute_sound. Qed.
Ltac speaks := repeat first [apply SY_nil|apply SY_txt|apply SY_dol|eapply SY_some; [reflexivity| |]|eapply SY_none; [reflexivity|]|apply VS_now|eapply SY_sub_none; [reflexivity|]
  |eapply SY_sub; [reflexivity| |apply subst_by|]|apply VS_later|apply VS_plus
  |apply SI_nil|apply SI_txts|apply SI_txt; [reflexivity|]|eapply SI_part; [reflexivity| |]|apply WI_later|apply WI_now|apply WI_plus].

Definition t_ (s : string) : part := Txt (mk s).
Definition r_ (s : string) : part := Ref (lit s).

Definition condition_exprb (e : wexpr) : bool := made_ofb condb e && (match show e with c :: _ => negb (c =? c_space)%N | [] => true end).
Definition all_spaceb (r : str) : bool := forallb is_whitespace r.
Fixpoint nestedb (n : nat) (es : list wexpr) : bool :=
  match es with
  | [] => Nat.eqb n 1
  | e :: es =>
      made_ofb line_charb e &&
      (if starts_with (lit "define") (unindented (show e)) then match n with 0 => false | S _ => nestedb (S n) es end
       else if starts_with (lit "endef") (unindented (show e))
            then match n with S (S m) => all_spaceb (skipn 5 (unindented (show e))) && nestedb (S m) es | _ => false end
            else nestedb n es)
  end.
Lemma nestedb_ok : forall es n, nestedb n es = true -> nested n es.
Proof.
  induction es as [|e es IH]; intros n H; cbn [nestedb] in H; [apply Nat.eqb_eq in H as ->; constructor|].
  apply andb_prop in H as [M H]. assert (Me : made_of line_char e) by (eapply made_ofb_ok; [exact line_charb_ok|exact M]).
  destruct (starts_with (lit "define") (unindented (show e))) eqn:D.
  - destruct n as [|n]; [discriminate|]. apply starts_with_iff in D as [r Er]. eapply NE_define; eauto.
  - destruct (starts_with (lit "endef") (unindented (show e))) eqn:F.
    + destruct n as [|[|n]]; [discriminate|discriminate|]. apply andb_prop in H as [A H]. apply starts_with_iff in F as [r Er]. rewrite Er in A.
      eapply NE_endef; eauto. eapply forallb_all; [|exact A]. intros c Ec. exact Ec.
    + apply NE_line; auto; intros r Er; [apply not_true_iff_false in D; apply D|apply not_true_iff_false in F; apply F]; apply starts_with_iff; exists r; exact Er.
Qed.
Lemma first_ok : forall s, (match s with c :: _ => negb (c =? c_space)%N | [] => true end) = true -> not_blank_first s.
Proof. intros [|c s] H; [exact Logic.I|]. apply negb_true_iff, N.eqb_neq in H. exact H. Qed.
Lemma condition_exprb_ok : forall e, condition_exprb e = true -> condition_expr e.
Proof. intros e H. apply andb_prop in H as [A B]. split; [eapply made_ofb_ok; [exact condb_ok|exact A]|apply first_ok; exact B]. Qed.
Definition quotedb (q : bool) (c : char) : bool := ordinaryb c && negb (existsb (N.eqb c) (quote q)).
Lemma quotedb_ok : forall q c, quotedb q c = true -> ordinary c /\ ~ In c (quote q).
Proof.
  intros q c H. apply andb_prop in H as [A B]. split; [apply ordinaryb_ok; exact A|]. intros I. apply negb_true_iff in B. apply not_true_iff_false in B. apply B.
  apply existsb_exists. exists c. split; [exact I|apply N.eqb_refl].
Qed.
Definition conditionsb (k : test) (a b : wexpr) : bool :=
  match k with
  | Parens _ => condition_exprb a && condition_exprb b
  | Quotes _ q q' => made_ofb (quotedb q) a && made_ofb (quotedb q') b
  end.
Lemma conditionsb_ok : forall k a b, conditionsb k a b = true -> conditions k a b.
Proof.
  intros [n|n q q'] a b H; apply andb_prop in H as [A B].
  - split; apply condition_exprb_ok; assumption.
  - split; (eapply made_ofb_ok; [exact (quotedb_ok _)|assumption]).
Qed.

Definition evalb (c : char) : bool := ordinaryb c && negb (existsb (N.eqb c) [40; 41; 59]%N).
Lemma evalb_ok : forall c, evalb c = true -> ordinary c /\ ~ In c [40; 41; 59]%N.
Proof.
  intros c H. apply andb_prop in H as [A B]. split; [apply ordinaryb_ok; exact A|]. intros I. apply negb_true_iff in B. apply not_true_iff_false in B. apply B.
  apply existsb_exists. exists c. split; [exact I|apply N.eqb_refl].
Qed.
Definition evaluableb (c : stmt) : bool :=
  match c with
  | SAssign x _ [Txt v] => nameb x && forallb evalb v && (match v with c :: _ => negb (c =? c_space)%N | [] => true end)
  | SRule ts _ [Txt d] [] => match ts with [] => false | _ => true end && forallb nameb ts && (made_ofb depb [Txt d] && unreservedb (trim_start (show [Txt d])))
  | _ => false
  end.
Lemma evaluableb_ok : forall c, evaluableb c = true -> evaluable c.
Proof.
  intros c H. destruct c as [|x o e| | | |ts double deps recipe| | | | |]; try discriminate H.
  - destruct e as [|[v| | |] [|? ?]]; try discriminate H. apply andb_prop in H as [H B]. apply andb_prop in H as [N F].
    split; [apply nameb_ok; exact N|]. split; [eapply forallb_all; [exact evalb_ok|exact F]|apply first_ok; exact B].
  - destruct deps as [|[d| | |] [|? ?]]; try discriminate H. destruct recipe; try discriminate H. apply andb_prop in H as [H D]. apply andb_prop in H as [NE F]. apply andb_prop in D as [D U].
    split; [destruct ts; discriminate|]. split; [eapply forallb_all; [exact nameb_ok|exact F]|]. split; [eapply made_ofb_ok; [exact depb_ok|exact D]|apply unreservedb_ok; exact U].
Qed.

Definition long_lineb (e : wexpr) : bool :=
  made_ofb ordinaryb e && match show e with [] => false | c :: _ => negb (c =? c_space)%N end && match rev (show e) with [] => false | c :: _ => negb (c =? c_space)%N end.
Lemma long_lineb_ok : forall e, long_lineb e = true -> long_line e.
Proof.
  intros e H. apply andb_prop in H as [H R]. apply andb_prop in H as [M B]. split; [eapply made_ofb_ok; [exact ordinaryb_ok|exact M]|].
  split; [intros Z; rewrite Z in B; discriminate|]. split; apply first_ok; [destruct (show e)|destruct (rev (show e))]; auto; discriminate.
Qed.
Definition breakb (p : part) : bool := match p with Txt [a; b] => (a =? c_bslash)%N && (b =? c_nl)%N | _ => false end.
Fixpoint breaks (e : wexpr) : wexpr * list wexpr :=
  match e with
  | [] => ([], [])
  | p :: r => let '(a, b) := breaks r in if breakb p then ([], a :: b) else (p :: a, b)
  end.
Definition command_lineb (e : wexpr) : bool := made_ofb line_charb e && negb (continued (fun c => c) (show e)).
Definition recipe_exprb (e : wexpr) : bool :=
  let '(a, b) := breaks e in forallb command_lineb (a :: b) && forallb (fun l => match show l with [] => false | _ => true end) b.
Lemma breaks_ok : forall e a b, breaks e = (a, b) -> e = a ++ concat (List.map (fun l => Txt [c_bslash; c_nl] :: l) b).
Proof.
  induction e as [|p r IH]; intros a b H; [injection H as <- <-; reflexivity|]. cbn in H. destruct (breaks r) as [a' b'] eqn:E. rewrite (IH _ _ eq_refl).
  destruct (breakb p) eqn:B; injection H as <- <-; [|reflexivity]. destruct p as [[|x [|y [|]]]| | |]; try discriminate. apply andb_prop in B as [X Y]. apply N.eqb_eq in X, Y. subst. reflexivity.
Qed.
Lemma command_lineb_ok : forall e, command_lineb e = true -> command_line e.
Proof. intros e H. apply andb_prop in H as [M W]. split; [eapply made_ofb_ok; [exact line_charb_ok|exact M]|]. apply negb_true_iff in W. exact W. Qed.
Lemma recipe_exprb_ok : forall e, recipe_exprb e = true -> recipe_expr e.
Proof.
  intros e H. unfold recipe_exprb in H. destruct (breaks e) as [a b] eqn:E. apply breaks_ok in E. subst e. apply andb_prop in H as [H N].
  revert a H N. induction b as [|l b IH]; intros a H N; cbn [forallb] in *; apply andb_prop in H as [A H].
  - cbn. rewrite app_nil_r. apply RX_line, command_lineb_ok. exact A.
  - apply andb_prop in N as [NE N]. cbn [List.map concat app]. apply RX_more; [apply command_lineb_ok; exact A|apply IH; [exact H|exact N]|].
    rewrite WriteProofs2.show_app. destruct (show l); discriminate.
Qed.
Definition solid_firstb (s : str) : bool := match s with c :: _ => negb (c =? c_space)%N && negb (c =? c_tab)%N | [] => true end.
Definition value_exprb (e : wexpr) : bool := command_lineb e && solid_firstb (show e).
Lemma value_exprb_ok : forall e, value_exprb e = true -> value_expr e.
Proof.
  intros e H. apply andb_prop in H as [C F]. apply command_lineb_ok in C as [M W]. split; [exact M|]. split; [exact W|]. unfold solid_first. destruct (show e) as [|c r]; [exact Logic.I|].
  apply andb_prop in F as [A B]. apply negb_true_iff, N.eqb_neq in A, B. auto.
Qed.
Definition command_exprb (e : wexpr) : bool :=
  made_ofb ordinaryb e && (match show e with [] => true | c :: _ => (c =? c_space)%N end) &&
  negb (existsb (fun k => starts_with (lit k) (trim_start (show e))) ["="; ":="; "::="; "?="; "!="; "+="]%string).
Lemma command_exprb_ok : forall e, command_exprb e = true -> command_expr e.
Proof.
  intros e H. apply andb_prop in H as [H O]. apply andb_prop in H as [M B]. split; [eapply made_ofb_ok; [exact ordinaryb_ok|exact M]|]. split.
  - destruct (show e); [exact Logic.I|]. apply N.eqb_eq. exact B.
  - intros k r I E. apply negb_true_iff, not_true_iff_false in O. apply O. apply existsb_exists. exists k. split; [exact I|]. apply starts_with_iff. exists r. exact E.
Qed.

(** Well-formed statements. *)
Fixpoint well_formedb (c : stmt) : bool :=
  match c with
  | SBlank => true
  | SAssign x _ e => nameb x && value_exprb e
  | SAssignTo x _ e => computedb x && value_exprb e
  | SLong x _ down e es => nameb x && forallb long_lineb (e :: es) && (down || match es with [] => false | _ => true end)
  | SDefine x body => nameb x && nestedb 1 body
  | SRule ts _ deps recipe => match ts with [] => false | _ => true end && forallb nameb ts && (made_ofb depb deps && unreservedb (trim_start (show deps))) && forallb recipe_exprb recipe
  | SRuleFor ts _ deps cmd recipe => match ts with [] => false | _ => true end && forallb computedb ts && (made_ofb depb deps && unreservedb (trim_start (show deps))) && forallb command_exprb (commands cmd) && forallb recipe_exprb recipe
  | SWords ws => match ws with [] => false | w :: ws => (nameb w || (if list_eq_dec N.eq_dec w (lit "ifeq") then true else false) || (if list_eq_dec N.eq_dec w (lit "ifneq") then true else false)) && forallb nameb ws end
  | SInclude _ e => made_ofb depb e
  | SEval c => evaluableb c
  | SIf k a b yes no => conditionsb k a b && forallb well_formedb yes && match no with None => true | Some no => forallb well_formedb no end
  end.
Lemma well_formedb_ok : forall c, well_formedb c = true -> well_formed c.
Proof.
  induction c as [c IH] using WriteProofs5.stmt_induct. intros H.
  assert (All : forall ss, Forall (fun c => well_formedb c = true -> well_formed c) ss -> forallb well_formedb ss = true -> every well_formed ss).
  { intros ss F. induction F as [|d ss Hd F IHs]; intros E; [exact Logic.I|]. apply andb_prop in E as [E1 E2]. split; auto. }
  destruct c; cbn [well_formedb] in H; cbn [well_formed].
  - exact Logic.I.
  - apply andb_prop in H as [N V]. split; [apply nameb_ok; exact N|apply value_exprb_ok; exact V].
  - apply andb_prop in H as [N V]. split; [apply computedb_ok; exact N|apply value_exprb_ok; exact V].
  - apply andb_prop in H as [H D]. apply andb_prop in H as [N F]. split; [apply nameb_ok; exact N|]. split; [eapply forallb_all; [exact long_lineb_ok|exact F]|].
    destruct down; [left; reflexivity|]. destruct es; [discriminate|]. right. discriminate.
  - apply andb_prop in H as [N B]. split; [apply nameb_ok; exact N|apply nestedb_ok; exact B].
  - apply andb_prop in H as [H R]. apply andb_prop in H as [H D]. apply andb_prop in H as [NE F]. apply andb_prop in D as [D U].
    split; [destruct targets; discriminate|]. split; [eapply forallb_all; [exact nameb_ok|exact F]|]. split; [split; [eapply made_ofb_ok; [exact depb_ok|exact D]|apply unreservedb_ok; exact U]|].
    eapply forallb_all; [exact recipe_exprb_ok|exact R].
  - apply andb_prop in H as [H R]. apply andb_prop in H as [H Cm]. apply andb_prop in H as [H D]. apply andb_prop in H as [NE F]. apply andb_prop in D as [D U].
    split; [destruct targets; discriminate|]. split; [eapply forallb_all; [exact computedb_ok|exact F]|]. split; [split; [eapply made_ofb_ok; [exact depb_ok|exact D]|apply unreservedb_ok; exact U]|].
    split; [eapply forallb_all; [exact command_exprb_ok|exact Cm]|].
    eapply forallb_all; [exact recipe_exprb_ok|exact R].
  - destruct ws as [|w ws]; [discriminate|]. apply andb_prop in H as [W F]. split; [|eapply forallb_all; [exact nameb_ok|exact F]].
    destruct (list_eq_dec N.eq_dec w (lit "ifeq")) as [->|_]; [auto|]. destruct (list_eq_dec N.eq_dec w (lit "ifneq")) as [->|_]; [auto|].
    rewrite !orb_false_r in W. left. apply nameb_ok. exact W.
  - eapply made_ofb_ok; [exact depb_ok|exact H].
  - apply evaluableb_ok. exact H.
  - apply andb_prop in H as [H N]. apply andb_prop in H as [H Y]. destruct IH as [I1 I2].
    split; [apply conditionsb_ok; exact H|]. split; [apply All; auto|]. destruct no; [apply All; auto|exact Logic.I].
Qed.
Lemma all_well_formedb_ok : forall ss, forallb well_formedb ss = true -> every well_formed ss.
Proof. intros ss H. apply WriteProofs5.every_forall. eapply forallb_all; [exact well_formedb_ok|exact H]. Qed.
Ltac is_formed := apply all_well_formedb_ok; vm_compute; reflexivity.

(** Two files that are included, one with a header and a rule at the end; one is missing. *)
Definition rules_mk : list stmt :=
  [SAssign (lit "inc") OSet [r_ "x"; t_ ".o"]; SRule [lit "obj.o"] false [r_ "inc"] []; SRule [lit "lost"] false [] [[t_ "never"]]].
Definition some_files (n : str) : file :=
  if list_eq_dec N.eq_dec n (lit "rules.mk") then FText (mk "# A header,~y = lost # the end~" ++ show_all rules_mk) else FOpenError 2.
Lemma rules_written : written rules_mk (mk "# A header,~y = lost # the end~" ++ show_all rules_mk).
Proof.
  apply (WR_comment rules_mk (mk " A header,~y = lost #") (lit " the end")).
  - apply (forallb_all (fun c => (c <? 128)%N)); [|vm_compute; reflexivity]. intros c H. apply N.ltb_lt. exact H.
  - right. exists (mk " A header,~y = lost "). reflexivity.
  - apply (forallb_all ordinaryb); [|vm_compute; reflexivity]. intros c H. left. apply ordinaryb_ok. exact H.
Qed.
Definition nextline : part := Txt [c_bslash; c_nl].
Definition statements : list stmt :=
  [SAssign (lit "x") OSet [t_ "a b"];
   SAssign (lit "y") ONow [r_ "x"; t_ "c"];
   SAssign (lit "x") OMore [r_ "y"; r_ "none"; t_ "!"];
   SBlank;
   SEval (SAssign (lit "e") ONow [t_ "1 2"]);
   SDefine (lit "z") [[t_ "if "; r_ "x"; Dol]; [t_ "  define q"]; [t_ "x = 5"]; [t_ "endef "]];
   SAssign (lit "files") OShell [t_ "rules.mk"];
   SInclude true [t_ "missing.mk "; r_ "files"];
   SIf (Parens false) [r_ "y"] [t_ "b"] [SAssign (lit "u") OSet [t_ "1"]; SIf (Parens true) [t_ "1"] [t_ "2"] [SWords [lit "zzz"]] None]
     (Some [SAssign (lit "u") ONow [t_ "<"; r_ "y"; t_ ">"]; SRule [lit "t"; lit "s.o"] false [t_ "d "; r_ "y"] [[t_ "echo "; r_ "x"]; [t_ "ifeq (a,b)"]]]);
   SAssign (lit "SRCS") OSet [t_ "a.c b.c"];
   SAssign (lit "OBJS") OSet [Sub (lit "SRCS") (lit ".c") (lit ".o")];
   SAssign (lit "p") ONow [t_ "lib"];
   SAssignTo [r_ "p"; t_ "_x"] ONow [Sub (lit "OBJS") (lit "%.o") (lit "d/%.d")];
   SRuleFor [[r_ "OBJS"]; [r_ "p"; t_ ".a"]] false [r_ "lib_x"; t_ " "] (Some [t_ " A=1 "; r_ "x"; t_ "; := 2"]) [[t_ "echo "; Sub (lit "OBJS") (lit ".o") []]; [t_ "if "; r_ "p"; t_ "; "; nextline; t_ "x = \1\\"; nextline; t_ "endif"]];
   SWords [lit "nothing"; lit "at"; lit "all"];
   SWords [lit "ifeq"; lit "at"; lit "all"];
   SRule [lit "t"] false [t_ "more"] [];
   SIf (Quotes true false true) [t_ "1)"; r_ "p"] [t_ " 2,"] [SRule [lit "v"] true [] [[]]] None;
   SLong (lit "L") OSet true [t_ "a.c"; r_ "p"] [[t_ "b.c"]; [r_ "x"]];
   SLong (lit "L") ONow false [r_ "L"] [[t_ "z"]];
   SAssign (lit "last") OMaybe []].

Lemma statements_formed : every well_formed statements.
Proof. is_formed. Qed.
Ltac told := lazymatch goal with |- rule_is _ _ _ _ _ => eexists; vm_compute; reflexivity | |- _ => vm_compute; reflexivity end.
Lemma statements_do : exists s, does_all some_files w_start statements s /\
  (exists v, w_env s (lit "x") = Some v /\ val_says (w_env s) v (lit "a b a bc!")) /\
  (exists v, w_env s (lit "z") = Some v /\ val_says (w_env s) v (mk "if a b a bc!$~  define q~x = 5~endef ~")) /\
  (exists v, w_env s (lit "e") = Some v /\ val_says (w_env s) v (lit "1 2")) /\
  (exists v, w_env s (lit "u") = Some v /\ val_says (w_env s) v (lit "<a bc>")) /\
  (exists v, w_env s (lit "inc") = Some v /\ val_says (w_env s) v (lit "a b a bc!.o")) /\
  rule_is s (lit "obj.o") [lit "a"; lit "b"; lit "a"; lit "bc!.o"] [] false /\
  w_rules s (lit "lost") = None /\
  (exists v, w_env s (lit "lib_x") = Some v /\ val_says (w_env s) v (lit "d/a.d d/b.d")) /\
  rule_is s (lit "b.o") [lit "d/a.d"; lit "d/b.d"] [[t_ " A=1 "; r_ "x"; t_ "; := 2"]; [t_ "echo "; Sub (lit "OBJS") (lit ".o") []];
    [t_ "if "; r_ "p"; t_ "; "; nextline; t_ "x = \1\\"; nextline; t_ "endif"]] false /\
  says (w_env s) [t_ "if "; r_ "p"; t_ "; "; nextline; t_ "x = \1\\"; nextline; t_ "endif"] (mk "if lib; \~x = \1\\\~endif") /\
  says (w_env s) [t_ "echo "; Sub (lit "OBJS") (lit ".o") []] (lit "echo a b") /\
  w_rules s (lit "lib.a") = w_rules s (lit "b.o") /\
  rule_is s (lit "t") [lit "d"; lit "a"; lit "bc"; lit "more"] [[t_ "echo "; r_ "x"]; [t_ "ifeq (a,b)"]] false /\
  rule_is s (lit "v") [] [[]] true /\
  (exists v, w_env s (lit "L") = Some v /\ val_says (w_env s) v (lit "a.clib b.c a b a bc! z")).
Proof.
  assert (Safe : forall d, forallb (fun c => negb (existsb (N.eqb c) [0; 58; 59; 92]%N)) d = true -> safe_deps d).
  { intros d H c I Z. rewrite forallb_forall in H. specialize (H c I). apply negb_true_iff, not_true_iff_false in H. apply H. apply existsb_exists. exists c. split; [exact Z|apply N.eqb_refl]. }
  eexists. split.
  { unfold statements.
    eapply DS_cons; [eapply D_assign; apply G_set|].
    eapply DS_cons; [eapply D_assign; apply G_now; [discriminate|speaks]|].
    eapply DS_cons; [eapply D_assign; apply G_more; reflexivity|].
    eapply DS_cons; [apply D_blank|].
    eapply DS_cons; [eapply D_eval; apply G_now; [discriminate|speaks]|].
    eapply DS_cons; [apply D_define|].
    eapply DS_cons; [eapply D_assign; apply G_shell|].
    eapply DS_cons.
    { eapply D_include; [speaks| |].
      - intros c I Z. refine (Safe _ _ c I _); [vm_compute; reflexivity|]. cbn in Z |- *. tauto.
      - eapply BR_skip; [reflexivity|]. eapply BR_file; [reflexivity|exact rules_written|is_formed| |apply BR_none].
        eapply DS_cons; [eapply D_assign; apply G_set|].
        eapply DS_cons; [eapply D_rule; [speaks|apply Safe; vm_compute; reflexivity]|].
        eapply DS_cons; [eapply D_rule; [speaks|apply Safe; vm_compute; reflexivity]|]. apply DS_nil. }
    eapply DS_cons.
    { eapply D_else; [speaks|speaks|vm_compute; reflexivity| |].
      - apply KS_cons; [apply K_assign|]. apply KS_cons; [|apply KS_nil].
        eapply K_if; [speaks|speaks|]. apply KS_cons; [apply K_words|apply KS_nil].
      - eapply DS_cons; [eapply D_assign; apply G_now; [discriminate|speaks]|].
        eapply DS_cons; [eapply D_rule; [speaks|apply Safe; vm_compute; reflexivity]|apply DS_nil]. }
    eapply DS_cons; [eapply D_assign; apply G_set|].
    eapply DS_cons; [eapply D_assign; apply G_set|].
    eapply DS_cons; [eapply D_assign; apply G_now; [discriminate|speaks]|].
    eapply DS_cons; [eapply D_assign_to; [speaks|apply G_now; [discriminate|speaks]]|].
    eapply DS_cons.
    { eapply D_rule_for; [apply Forall2_cons; [speaks|apply Forall2_cons; [speaks|apply Forall2_nil]]|split; [vm_compute; discriminate|exact Logic.I]| |speaks|apply Safe; vm_compute; reflexivity].
      apply Forall_cons; [apply Safe; vm_compute; reflexivity|apply Forall_cons; [apply Safe; vm_compute; reflexivity|apply Forall_nil]]. }
    eapply DS_cons; [apply D_words|]. eapply DS_cons; [apply D_words|].
    eapply DS_cons; [eapply D_rule; [speaks|apply Safe; vm_compute; reflexivity]|].
    eapply DS_cons; [eapply D_then; [speaks|speaks|vm_compute; reflexivity|]|].
    { eapply DS_cons; [eapply D_rule; [speaks|intros c []]|apply DS_nil]. }
    eapply DS_cons; [eapply D_long; apply GL_later; cbn; tauto|]. eapply DS_cons; [eapply D_long; apply GL_now; speaks|].
    eapply DS_cons; [eapply D_assign; apply G_maybe|]. apply DS_nil. }
  assert (V : forall E v s s', s = s' -> val_says E v s -> val_says E v s') by (intros E v s s' <-; auto).
  assert (V' : forall E e s s', s = s' -> says E e s -> says E e s') by (intros E e s s' <-; auto).
  split; [eexists; split; [reflexivity|eapply V; [|speaks]; vm_compute; reflexivity]|].
  split; [eexists; split; [reflexivity|eapply V; [|cbn; speaks]; vm_compute; reflexivity]|].
  split; [eexists; split; [reflexivity|eapply V; [|speaks]; vm_compute; reflexivity]|].
  split; [eexists; split; [reflexivity|eapply V; [|speaks]; vm_compute; reflexivity]|].
  split; [eexists; split; [reflexivity|eapply V; [|speaks]; vm_compute; reflexivity]|].
  split; [told|]. split; [told|].
  split; [eexists; split; [reflexivity|eapply V; [|speaks]; vm_compute; reflexivity]|].
  split; [told|]. split; [eapply V'; [|speaks]; vm_compute; reflexivity|]. split; [eapply V'; [|speaks]; vm_compute; reflexivity|].
  split; [told|]. split; [told|]. split; [told|].
  eexists; split; [reflexivity|eapply V; [|speaks]; vm_compute; reflexivity].
Qed.

(** A branch that is not taken at the end of a file, a rule in it, and what follows. *)
Definition forgotten : list stmt :=
  [SRule [lit "t"] false [] [[t_ "one"]];
   SIf (Parens false) [t_ "1"] [t_ "2"] [SRule [lit "u"] false [] [[t_ "two"]]] None;
   SAssign (lit "x") OSet [t_ "gone"];
   SIf (Parens false) [t_ "1"] [t_ "1"] [SAssign (lit "y") OSet [t_ "kept"]] None].
Lemma forgotten_formed : every well_formed forgotten.
Proof. is_formed. Qed.
Lemma forgotten_acts : exists s, acts_all no_files true w_start forgotten s /\ w_env s (lit "x") = None /\ w_env s (lit "y") = Some (Later [t_ "kept"]) /\
  rule_is s (lit "t") [] [[t_ "one"]; [t_ "two"]] false /\ w_rules s (lit "u") = None.
Proof.
  eexists. split.
  { unfold forgotten. eapply AA_cons; [eapply A_rule; [reflexivity|speaks|intros c []]|].
    eapply AA_cons; [eapply A_if; [speaks|speaks|]|].
    { eapply AA_cons; [apply A_ignored; [vm_compute; reflexivity|eapply I_recipe; vm_compute; reflexivity]|apply AA_nil]. }
    eapply AA_cons; [apply A_ignored; [vm_compute; reflexivity|apply I_assign]|].
    eapply AA_cons; [eapply A_if; [speaks|speaks|]|apply AA_nil].
    eapply AA_cons; [eapply A_assign; [vm_compute; reflexivity|apply G_set]|apply AA_nil]. }
  split; [vm_compute; reflexivity|]. split; [vm_compute; reflexivity|]. split; [eexists; vm_compute; reflexivity|vm_compute; reflexivity].
Qed.

(** * Calm makefiles *)
Definition calm_rank (x : str) : nat := if list_eq_dec N.eq_dec x (lit "z") then 2 else if list_eq_dec N.eq_dec x (lit "objs") then 2 else if list_eq_dec N.eq_dec x (lit "inc") then 2 else if list_eq_dec N.eq_dec x (lit "x") then 1 else if list_eq_dec N.eq_dec x (lit "url") then 1 else 0.
Definition calm_clean (x : str) : Prop := x <> lit "url".
Definition calm_statements : list stmt :=
  [SAssign (lit "x") OSet [t_ "a b"];
   SAssign (lit "url") OSet [t_ "http://x"; r_ "y"];
   SAssign (lit "y") ONow [r_ "x"; t_ "c"];
   SAssign (lit "x") OMore [r_ "y"; r_ "none"; t_ "!"];
   SDefine (lit "z") [[t_ "if "; r_ "x"; Dol]];
   SInclude true [t_ "missing.mk rules.mk"];
   SAssign (lit "objs") OSet [Sub (lit "x") (lit "c") (lit "o"); t_ " "; Sub (lit "none") (lit "%.c") (lit "%.o")];
   SAssignTo [t_ "flags_"; r_ "x"] OSet [t_ "-O2"];
   SAssignTo [r_ "y"] ONow [r_ "objs"];
   SIf (Parens false) [r_ "z"] [Sub (lit "objs") (lit "o") (lit "c")] [SRule [lit "s"] false [] [[t_ "echo "; r_ "x"; Txt [c_bslash; c_nl]; t_ "  then"; Txt [c_bslash; c_tab; 13%N]]]] None;
   SEval (SAssign (lit "x") OMore [t_ "<more>"]);
   SEval (SRule [lit "u"; lit "v"] true [t_ "t"] []);
   SRuleFor [[t_ "all"]; [r_ "objs"]] false [r_ "y"] (Some [t_ " cp"]) [[t_ "cc"]];
   SRule [lit "t"] false [r_ "z"; t_ " more"] []].
Definition safeb (s : str) : bool := forallb (fun c => negb (existsb (N.eqb c) [0; 58; 59; 92]%N)) s.
Lemma safeb_ok : forall s, safeb s = true -> safe_deps s.
Proof.
  intros s H c I J. unfold safeb in H. rewrite forallb_forall in H. apply H, negb_true_iff, not_true_iff_false in I. apply I. apply existsb_exists. exists c. split; [exact J|apply N.eqb_refl].
Qed.
Ltac is_below := repeat (apply Forall_cons; [first [exact Logic.I|vm_compute; lia]|]); apply Forall_nil.
Ltac is_pure := repeat (apply Forall_cons; [first [exact Logic.I|apply safeb_ok; vm_compute; reflexivity|unfold calm_clean; discriminate]|]); apply Forall_nil.
Ltac is_line := split; [eapply made_ofb_ok; [exact line_charb_ok|vm_compute; reflexivity]|vm_compute; reflexivity].
Ltac is_free := intros k r I E; cbn in I; repeat (destruct I as [<-|I]; [discriminate E|]); destruct I.
Ltac is_quiet := apply QU_line; [is_line|is_free].
Ltac is_silent := split; [is_line|split; [is_free|intros r E; discriminate E]].
Lemma calm_case : every well_formed calm_statements /\ calm_all some_files calm_rank calm_clean calm_statements.
Proof.
  split; [is_formed|]. unfold calm_statements.
  apply CS_cons; [apply CA_later; [discriminate|is_below|intros _; is_pure]|].
  apply CS_cons; [apply CA_later; [discriminate|is_below|intros N; contradiction N; reflexivity]|].
  apply CS_cons; [apply CA_now; [discriminate|intros _; is_pure]|].
  apply CS_cons; [apply CA_later; [discriminate|is_below|intros _; is_pure]|].
  apply CS_cons; [apply CA_define; [constructor; [is_silent|constructor]|constructor; [is_below|constructor]|intros _; constructor; [is_pure|constructor]]|].
  apply CS_cons; [apply CA_include|].
  { eapply CF_skip; [reflexivity|]. eapply CF_file; [reflexivity|exact rules_written|is_formed| |apply CF_nil].
    apply CS_cons; [apply CA_later; [discriminate|is_below|intros _; is_pure]|].
    apply CS_cons; [apply CA_rule; [is_pure|constructor]|]. apply CS_cons; [apply CA_rule; [is_pure|constructor; [is_quiet|constructor]]|apply CS_nil]. }
  apply CS_cons; [apply CA_later; [discriminate|is_below|intros _; is_pure]|].
  apply CS_cons; [apply CA_assign_to; [discriminate|is_below|is_pure]|].
  apply CS_cons; [apply CA_assign_now; [discriminate|is_pure]|].
  apply CS_cons; [apply CA_if; apply CS_cons; [apply CA_rule; [is_pure|constructor; [|constructor]]|apply CS_nil]|].
  { apply (QU_more [t_ "echo "; r_ "x"] [t_ "  then"; Txt [c_bslash; c_tab; 13%N]] 101%N (lit "cho $(x)")); [is_line|is_free|reflexivity|cbn; lia|apply RX_line; is_line|discriminate]. }
  apply CS_cons; [apply CA_eval; apply CA_later; [discriminate|is_below|intros _; is_pure]|].
  apply CS_cons; [apply CA_eval; apply CA_rule; [is_pure|constructor]|].
  apply CS_cons; [apply CA_rule_for; [constructor; [is_pure|constructor; [is_pure|constructor; [is_pure|constructor]]]|constructor; [exists (lit "all"); split; [now left|discriminate]|constructor]|constructor; [is_quiet|constructor]]|].
  apply CS_cons; [apply CA_rule; [is_pure|constructor]|apply CS_nil].
Qed.

(** * Where the code differs from GNU make *)
Lemma has_value_unique : forall fs w x a b, has_value fs w x a -> has_value fs w x b -> a = b.
Proof.
  intros fs w x a b (v & V & n & H) (v' & V' & n' & H'). rewrite V in V'. injection V' as <-.
  destruct (H (n + n')) as (w1 & b1 & E1 & F1); [lia|]. destruct (H' (n + n')) as (w2 & b2 & E2 & F2); [lia|].
  rewrite E1 in E2. injection E2 as <- <-. congruence.
Qed.
Lemma ex_define_newline : exists w, reads_to no_files (mk "define x~a~b~endef~") (Ok (w, MOk)) /\ has_value no_files w (lit "x") (mk "a~b~").
Proof. eexists. split; [by_run|by_value]. Qed.
Lemma ex_define_comment : exists w, reads_to no_files (mk "define x~# not a comment~b~endef~") (Ok (w, MOk)) /\ has_value no_files w (lit "x") (mk "b~").
Proof. eexists. split; [by_run|by_value]. Qed.
Lemma ex_define_hash : exists w, reads_to no_files (mk "define x~a~endef~y = 1~# comment~") (Ok (w, MOk)) /\ undefined w (lit "x") /\ undefined w (lit "y").
Proof. eexists. split; [by_run|]. split; vm_compute; reflexivity. Qed.
Lemma expands_by : forall fuel fs w a t w' b, eval_fuel fs fuel w a = Ok (w', b) -> block_into_string b = Ok t -> expands_to fs w a t.
Proof.
  intros fuel fs w a t w' b V T. exists fuel. intros f L. exists w', b. split; [|exact T]. exact (below_ok _ _ _ (eval_fuel_mono fs fuel f w a L) V).
Qed.
Lemma ex_recipe_hash : exists w, reads_to no_files (mk "t: d~@cmd~x = 1~# comment~y = 2~") (Ok (w, MOk)) /\ undefined w (lit "x") /\ has_value no_files w (lit "y") (lit "2") /\
  option_map (fun r => rv_recipe (view r)) (rule_of (w_names w) (w_db w) (lit "t")) = Some [].
Proof.
  eexists. split; [by_run|]. split; [vm_compute; reflexivity|]. split; [by_value|]. vm_compute; reflexivity.
Qed.
Lemma maybe_case : name (lit "CC") /\ plain_value (lit "gcc -O2") /\ plain_value (lit "cc").
Proof. split; [is_name|]. split; is_plain. Qed.
Lemma lines_case : name (lit "SRCS") /\ Forall line_part [lit "main.c"; lit "a b.c"; lit "z.c"].
Proof.
  split; [is_name|]. repeat (apply Forall_cons; [split; [eapply forallb_all; [exact ordinaryb_ok|vm_compute; reflexivity]|repeat split; discriminate]|]). apply Forall_nil.
Qed.
Lemma words_case : word_line [lit "not"; lit "a"; lit "rule"].
Proof. split; [left; is_name|is_names]. Qed.
Definition body_case : list str := [lit "x = 1"; lit "define y"; lit "  ifeq (a,"; c_tab :: lit "endef"; lit "t: d \"; c_tab :: lit "end of t\\" ++ [13%N]].
Lemma define_case : name (lit "z") /\ nested 1 (List.map (fun l => [Txt l]) body_case).
Proof. split; [is_name|]. apply nestedb_ok. vm_compute. reflexivity. Qed.
Ltac is_command := split; [eapply forallb_all; [exact line_charb_ok|vm_compute; reflexivity]|vm_compute; reflexivity].
Lemma recipe_case : name (lit "all") /\ Forall name [lit "a.o"; lit "b.o"] /\ Forall plain_command [lit "x = 1"; lit "endif"; lit "  cc -o all \n\\"] /\ name (lit "z") /\ plain_value [].
Proof.
  split; [is_name|]. split; [is_names|]. split; [|split; [is_name|is_plain]].
  repeat (apply Forall_cons; [is_command|]). apply Forall_nil.
Qed.

Lemma plain_condition_by : forall s, forallb condb s = true -> not_blank_first s -> plain_condition s.
Proof. intros s A B. split; [eapply forallb_all; [exact condb_ok|exact A]|exact B]. Qed.
Lemma lines_by : forall ls, forallb (forallb ordinaryb) ls = true -> Forall (Forall ordinary) ls.
Proof. intros ls H. eapply forallb_all; [|exact H]. intros l. apply forallb_all. exact ordinaryb_ok. Qed.
Lemma commands_case : name (lit "all") /\ Forall name [lit "a.o"] /\
  Forall (fun c => plain_command (fst c) /\ Forall (fun k => plain_command k /\ k <> []) (snd c)) [(lit "for i in 1 2; do", [lit "  x = 1"; lit "done \n"]); (lit "echo", [])] /\
  name (lit "z") /\ plain_value [].
Proof.
  split; [is_name|]. split; [is_names|]. split; [|split; [is_name|is_plain]].
  apply Forall_cons; [split; [is_command|]; repeat (apply Forall_cons; [split; [is_command|discriminate]|]); apply Forall_nil|].
  apply Forall_cons; [split; [is_command|apply Forall_nil]|apply Forall_nil].
Qed.
Lemma no_tab_case : name (lit "t") /\ Forall name [lit "d"] /\ Forall plain_command [lit "echo"] /\ plain_command (lit "cc -c \n ") /\ name (lit "x") /\ plain_value (lit "1").
Proof.
  split; [is_name|]. split; [is_names|]. split; [apply Forall_cons; [is_command|apply Forall_nil]|]. split; [is_command|]. split; [is_name|].
  is_plain.
Qed.
Definition endif_yes : list stmt := [SAssign (lit "x") ONow [r_ "y"]; SRule [lit "t"] false [t_ "d"] [[t_ "cmd"]]].
Definition endif_rest : list stmt := [SAssign (lit "CC") OSet [t_ "gcc"]; SInclude false [t_ "none.mk"]; SRule [lit "all"] false [t_ "t"] []; SDefine (lit "z") [[t_ "a"]]].
Lemma endif_case : plain_condition (lit "a") /\ plain_condition (lit "b c") /\ trim (lit "a") <> trim (lit "b c") /\
  every well_formed (endif_yes ++ endif_rest) /\ every straight (endif_yes ++ endif_rest).
Proof.
  split; [apply plain_condition_by; [reflexivity|discriminate]|]. split; [apply plain_condition_by; [reflexivity|discriminate]|]. split; [discriminate|]. split; [is_formed|].
  cbn. repeat split; try (apply Forall_cons; [first [is_quiet|is_silent]|]); apply Forall_nil.
Qed.
Lemma stolen_case : name (lit "t") /\ Forall (Forall ordinary) [lit "cc -c t.c"] /\ plain_condition (lit "yes") /\ plain_condition [] /\ trim (lit "yes") <> trim [] /\
  name (lit "clean") /\ lit "clean" <> lit "t" /\ Forall (Forall ordinary) [lit "rm -rf t"; lit "echo"] /\ name (lit "z") /\ plain_value (lit "1").
Proof.
  split; [is_name|]. split; [apply lines_by; reflexivity|]. split; [apply plain_condition_by; [reflexivity|discriminate]|]. split; [apply plain_condition_by; [reflexivity|exact Logic.I]|].
  split; [discriminate|]. split; [is_name|]. split; [discriminate|]. split; [apply lines_by; reflexivity|]. split; [is_name|].
  is_plain.
Qed.
Lemma comment_case : asciis (mk " Compiler~CC = gcc~all: prog~	$(CC) prog.c~") /\ Forall ordinary (lit " the end") /\ name (lit "x") /\ plain_value (lit "1").
Proof.
  split; [apply (forallb_all (fun c => (c <? 128)%N)); [intros c H; apply N.ltb_lt; exact H|vm_compute; reflexivity]|].
  split; [eapply forallb_all; [exact ordinaryb_ok|reflexivity]|]. split; [is_name|]. is_plain.
Qed.
Lemma included_case : exists fs, ascii_files fs /\ name (lit "rules.mk") /\ name (lit "all") /\ Forall (Forall ordinary) [lit "cc -c all.c"; lit "echo"] /\ name (lit "z") /\ plain_value (lit "1") /\
  fs (lit "rules.mk") = FText (lit "all" ++ lit ": " ++ nl ++ concat (List.map (fun l => c_tab :: l ++ nl) [lit "cc -c all.c"; lit "echo"])).
Proof.
  exists (fun n => if list_eq_dec N.eq_dec n (lit "rules.mk") then FText (lit "all" ++ lit ": " ++ nl ++ concat (List.map (fun l => c_tab :: l ++ nl) [lit "cc -c all.c"; lit "echo"])) else FOpenError 2).
  split.
  - intros n t E. destruct (list_eq_dec N.eq_dec n (lit "rules.mk")); [|discriminate]. injection E as <-.
    apply (forallb_all (fun c => (c <? 128)%N)); [intros c H; apply N.ltb_lt; exact H|vm_compute; reflexivity].
  - split; [is_name|]. split; [is_name|]. split; [apply lines_by; reflexivity|]. split; [is_name|].
    split; [is_plain|reflexivity].
Qed.
Lemma some_files_ascii : ascii_files some_files.
Proof.
  intros n t E. unfold some_files in E. destruct (list_eq_dec N.eq_dec n (lit "rules.mk")); [|discriminate]. injection E as <-.
  apply (forallb_all (fun c => (c <? 128)%N)); [intros c H; apply N.ltb_lt; exact H|vm_compute; reflexivity].
Qed.
Lemma malformed_case : every well_formed statements /\ (exists s, acts_all some_files true w_start statements s /\ w_deaf s = false) /\ Forall name [lit "a"; lit "b"].
Proof.
  split; [exact statements_formed|]. split; [|is_names]. destruct statements_do as (s & D & _). exists s. apply (WriteProofs6.does_acts some_files); [exact D|reflexivity].
Qed.

Lemma file_by : forall xs, forallb (fun x => match x with [] => false | _ => forallb word_charb x end) xs = true -> Forall file_name xs.
Proof. intros xs. apply forallb_all. intros [|c x] H; [discriminate|]. split; [discriminate|eapply forallb_all; [exact word_charb_ok|exact H]]. Qed.
Lemma once_by : forall from n, n <> [] -> (forall i, i < List.length n -> starts_with from (skipn i (n ++ from)) = false) -> from <> [] -> ends_once from n.
Proof.
  intros from n _ H Nf a b E. destruct (Nat.lt_ge_cases (List.length a) (List.length n)) as [L|L].
  - specialize (H _ L). rewrite E, skipn_app, skipn_all, Nat.sub_diag in H. cbn [app skipn] in H.
    apply not_true_iff_false in H. destruct H. apply starts_with_iff. exists b. reflexivity.
  - apply (f_equal (@List.length char)) in E. rewrite !app_length in E. destruct b; [reflexivity|]. cbn in E. lia.
Qed.
Lemma objects_case : name (lit "SRCS") /\ name (lit "OBJS") /\ name (lit "prog") /\ Forall word_char (lit ".c") /\ Forall word_char (lit ".o") /\
  Forall file_name [lit "main"; lit "src/util"] /\ Forall (ends_once (lit ".c")) [lit "main"; lit "src/util"] /\
  listed (lit "SRCS") [lit "main.c"; lit "src/util.c"] (mk "SRCS = main.c src/util.c~") /\
  listed (lit "SRCS") [lit "main.c"; lit "src/util.c"] (mk "SRCS = \~@main.c \~@src/util.c~") /\
  listed (lit "SRCS") [lit "main.c"; lit "src/util.c"] (mk "SRCS = main.c~SRCS += src/util.c~").
Proof.
  assert (F1 : Forall file_name [lit "main.c"]) by (apply file_by; reflexivity). assert (F2 : Forall file_name [lit "src/util.c"]) by (apply file_by; reflexivity).
  assert (L : listed (lit "SRCS") [lit "main.c"; lit "src/util.c"] (mk "SRCS = main.c src/util.c~") /\
    listed (lit "SRCS") [lit "main.c"; lit "src/util.c"] (mk "SRCS = \~@main.c \~@src/util.c~") /\
    listed (lit "SRCS") [lit "main.c"; lit "src/util.c"] (mk "SRCS = main.c~SRCS += src/util.c~")).
  { split; [|split].
    - apply (LI_line (lit "SRCS") [lit "main.c"; lit "src/util.c"]). apply file_by; reflexivity.
    - apply (LI_long (lit "SRCS") true [lit "main.c"] [[lit "src/util.c"]]); [|now left].
      apply Forall_cons; [split; [discriminate|exact F1]|]. apply Forall_cons; [split; [discriminate|exact F2]|apply Forall_nil].
    - apply (LI_more (lit "SRCS") [lit "main.c"] (mk "SRCS = main.c~") [lit "src/util.c"]); [|discriminate|exact F2].
      apply (LI_line (lit "SRCS") [lit "main.c"]). exact F1. }
  split; [is_name|]. split; [is_name|]. split; [is_name|]. split; [eapply forallb_all; [exact word_charb_ok|reflexivity]|]. split; [eapply forallb_all; [exact word_charb_ok|reflexivity]|].
  split; [apply file_by; reflexivity|]. split; [clear L|exact L]. repeat (apply Forall_cons; [apply once_by; [discriminate| |discriminate]; intros i L; cbn in L|]); [| |apply Forall_nil];
    repeat (destruct i as [|i]; [reflexivity|]); lia.
Qed.
Lemma twice_case : listed (lit "SRCS") [lit "a.c.c"; lit "lib.core/b.c"] (mk "SRCS = a.c.c lib.core/b.c~") /\
  Forall (fun s => exists a b, s = a ++ lit ".c" ++ b /\ b <> []) [lit "a.c.c"; lit "lib.core/b.c"].
Proof.
  split; [apply (LI_line (lit "SRCS") [lit "a.c.c"; lit "lib.core/b.c"]); apply file_by; reflexivity|]. apply Forall_cons; [exists (lit "a"), (lit ".c"); split; [reflexivity|discriminate]|].
  apply Forall_cons; [exists (lit "lib"), (lit "ore/b.c"); split; [reflexivity|discriminate]|apply Forall_nil].
Qed.
Lemma directory_case : file_name (lit "src") /\ Forall word_char (lit ".c") /\ Forall word_char (lit ".o") /\ Forall file_name [lit "/a"; lit "/b"] /\
  Forall (fun n => ends_once (lit ".c") (lit "src" ++ n)) [lit "/a"; lit "/b"] /\
  join c_space (List.map (fun n => lit "$(" ++ lit "dir" ++ lit ")" ++ n ++ lit ".c") [lit "/a"; lit "/b"]) = lit "$(dir)/a.c $(dir)/b.c".
Proof.
  assert (F : Forall file_name [lit "src"]) by (apply file_by; reflexivity).
  split; [exact (Forall_inv F)|]. split; [eapply forallb_all; [exact word_charb_ok|reflexivity]|]. split; [eapply forallb_all; [exact word_charb_ok|reflexivity]|].
  split; [apply file_by; reflexivity|]. split; [|reflexivity].
  repeat (apply Forall_cons; [apply once_by; [discriminate| |discriminate]; intros i L; cbn in L|]); [| |apply Forall_nil];
    repeat (destruct i as [|i]; [reflexivity|]); lia.
Qed.
