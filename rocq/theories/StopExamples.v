(** Examples of makefiles that end the program. *)
From Coq Require Import String.
From Verif Require Import Base LocModel EvdModel AstModel EngineModel EvdSpec DbSpec ParseModel ParseSpec EvalSpec AstParseSpec EngineSpec MakeSpec CrashSpec
  ModelTests ParseProofs EvdProofs2 EngineExamples MakeRun WriteSpec WriteProofs5 WriteProofs6 WriteExamples StopSpec StopProofs StopProofs2 CrashProofs3.
Local Open Scope nat_scope.

Ltac is_anything := apply (forallb_all (fun c => ordinaryb c || (c =? dollar)%N)); [|vm_compute; reflexivity];
  let c := fresh in let H := fresh in intros c H; apply orb_prop in H as [H|H]; [left; apply ordinaryb_ok; exact H|right; apply N.eqb_eq; exact H].
Ltac is_rest := apply (forallb_all (fun c => ordinaryb c || existsb (N.eqb c) [13; 36]%N)); [|vm_compute; reflexivity];
  let c := fresh in let H := fresh in intros c H; apply orb_prop in H as [H|H]; [left; apply ordinaryb_ok; exact H|right];
  let y := fresh in let J := fresh in let Q := fresh in apply existsb_exists in H as (y & J & Q); apply N.eqb_eq in Q; subst y; exact J.
Ltac is_short := split; [is_made|cbn; first [exact Logic.I|discriminate]].

Definition stays_openb (r : str) : bool :=
  forallb (fun n => count_occ N.eq_dec (firstn n r) close_paren <=? count_occ N.eq_dec (firstn n r) open_paren) (seq 0 (S (List.length r))).
Lemma stays_openb_ok : forall r, stays_openb r = true -> stays_open r.
Proof.
  intros r H p q E. unfold stays_openb in H. rewrite forallb_forall in H. specialize (H (List.length p)). cbn beta in H.
  assert (Q : firstn (List.length p) r = p) by (rewrite E, firstn_app, firstn_all, Nat.sub_diag, firstn_O; apply app_nil_r). rewrite Q in H.
  apply Nat.leb_le, H, in_seq. rewrite E, app_length. lia.
Qed.
Ltac is_open := apply stays_openb_ok; vm_compute; reflexivity.

(** A line of every kind. *)
Definition crashing_lines : list string :=
  ["ifdef x"; "IfNDef(y)"; "else ifeq (a,b)"; "elsewhere = 1"; "endif x"; "else"; "EndIf  "; "x :="; "export x = $(y)"; "override x += 1"; "private x := 1";
   "undefine x"; "export x y"; "unexport x"; "vpath x.c src"; "load $(x)"; "-load a"; "a b: x = 1"; "t:: x ?= 2"; "t: ;x=1 cmd"; "a.o: a.c;CC=$(cc) make a"; "a.o b.o: x.o: x.c"; "x = a $(y) $(z";
   "y += $(shell echo $(x) (b)"; "-include a $(y"; "a.o b.o: $(x) b $(y"; "t:: a.c; echo $(x"; "IfEq 'a $(x b' c"; "include none.mk"]%string.
Lemma crashing_lines_stop : forall k, In k crashing_lines -> stops some_files w_start Top (lit k).
Proof.
  assert (Ns : forall r c, In c r -> c <> c_space -> ~ only_spaces r) by (intros r c I N F; unfold only_spaces in F; rewrite Forall_forall in F; apply N, F; exact I).
  intros k I. cbn in I.
  destruct I as [<-|I]; [apply (SP_ifdef some_files w_start Top "ifdef" (lit "ifdef") (lit " x")); [cbn; tauto|reflexivity|is_rest]|].
  destruct I as [<-|I]; [apply (SP_ifdef some_files w_start Top "ifndef" (lit "IfNDef") (lit "(y)")); [cbn; tauto|reflexivity|is_rest]|].
  destruct I as [<-|I]; [apply (SP_extra some_files w_start Top "else" (lit "else") (lit " ifeq (a,b)")); [cbn; tauto|reflexivity|is_rest|apply (Ns _ 105%N); [cbn; tauto|discriminate]]|].
  destruct I as [<-|I]; [apply (SP_extra some_files w_start Top "else" (lit "else") (lit "where = 1")); [cbn; tauto|reflexivity|is_rest|apply (Ns _ 119%N); [cbn; tauto|discriminate]]|].
  destruct I as [<-|I]; [apply (SP_extra some_files w_start Top "endif" (lit "endif") (lit " x")); [cbn; tauto|reflexivity|is_rest|apply (Ns _ 120%N); [cbn; tauto|discriminate]]|].
  destruct I as [<-|I]; [apply (SP_else some_files w_start Top (lit "else") []); [reflexivity|constructor|discriminate]|].
  destruct I as [<-|I]; [apply (SP_endif some_files w_start (lit "EndIf") (lit "  ")); [reflexivity|repeat constructor]|].
  destruct I as [<-|I]; [apply (SP_no_value some_files w_start Top (lit "x") []); [reflexivity|is_name|constructor]|].
  destruct I as [<-|I]; [apply (SP_modified some_files w_start Top "export " (lit "x") OSet [r_ "y"]); [reflexivity|cbn; tauto|is_name|is_value|exact Logic.I]|].
  destruct I as [<-|I]; [apply (SP_modified some_files w_start Top "override " (lit "x") OMore [t_ "1"]); [reflexivity|cbn; tauto|is_name|is_value|exact Logic.I]|].
  destruct I as [<-|I]; [apply (SP_modified some_files w_start Top "private " (lit "x") ONow [t_ "1"]); [reflexivity|cbn; tauto|is_name|is_value|eexists; speaks]|].
  destruct I as [<-|I]; [apply (SP_undefine some_files w_start Top 120%N []); [reflexivity|apply word_charb_ok; reflexivity|constructor]|].
  destruct I as [<-|I]; [apply (SP_export some_files w_start Top [lit "x"; lit "y"]); [reflexivity|discriminate|is_names]|].
  destruct I as [<-|I]; [apply (SP_directive some_files w_start Top "unexport " [t_ "x"]); [reflexivity|cbn; tauto|eapply made_ofb_ok; [exact depb_ok|reflexivity]]|].
  destruct I as [<-|I]; [apply (SP_directive some_files w_start Top "vpath " [t_ "x.c src"]); [reflexivity|cbn; tauto|eapply made_ofb_ok; [exact depb_ok|reflexivity]]|].
  destruct I as [<-|I]; [apply (SP_directive some_files w_start Top "load " [r_ "x"]); [reflexivity|cbn; tauto|eapply made_ofb_ok; [exact depb_ok|reflexivity]]|].
  destruct I as [<-|I]; [apply (SP_directive some_files w_start Top "-load " [t_ "a"]); [reflexivity|cbn; tauto|eapply made_ofb_ok; [exact depb_ok|reflexivity]]|].
  destruct I as [<-|I]; [apply (SP_target_variable some_files w_start Top [lit "a"; lit "b"] false (lit "x") OSet [t_ "1"]); [reflexivity|discriminate|is_names|is_name|is_short|cbn; lia|exact Logic.I]|].
  destruct I as [<-|I]; [apply (SP_target_variable some_files w_start Top [lit "t"] true (lit "x") OMaybe [t_ "2"]); [reflexivity|discriminate|is_names|is_name|is_short|cbn; lia|exact Logic.I]|].
  destruct I as [<-|I]; [apply (SP_command some_files w_start Top [lit "t"] false [] (lit "x") [t_ "1 cmd"]); [reflexivity|discriminate|is_names|constructor|apply (forallb_all word_charb); [exact word_charb_ok|reflexivity]|is_short]|].
  destruct I as [<-|I]; [apply (SP_command some_files w_start Top [lit "a.o"] false (lit "a.c") (lit "CC") [r_ "cc"; t_ " make a"]); [reflexivity|discriminate|is_names|apply (forallb_all word_charb); [exact word_charb_ok|reflexivity]|apply (forallb_all word_charb); [exact word_charb_ok|reflexivity]|is_short]|].
  destruct I as [<-|I]; [eapply (SP_static some_files w_start Top [lit "a.o"; lit "b.o"] false [t_ "x.o: x.c"]); [reflexivity|discriminate|is_names| |apply unreservedb_ok; reflexivity|speaks|cbn; tauto|]|].
  { apply (made_ofb_ok (fun c => depb c || existsb (N.eqb c) [37; 58]%N)); [|reflexivity]. intros c H. apply orb_prop in H as [H|H]; [left; apply depb_ok; exact H|right].
    apply existsb_exists in H as (x & J & Q). apply N.eqb_eq in Q. subst x. exact J. }
  { intros c J Q. cbn in J, Q. lia. }
  destruct I as [<-|I]; [apply (SP_unclosed some_files w_start Top (lit "x") OSet [t_ "a "; r_ "y"; t_ " "] (lit "z")); [reflexivity|is_name|is_made|discriminate|is_anything|is_open]|].
  destruct I as [<-|I]; [apply (SP_unclosed some_files w_start Top (lit "y") OMore [] (lit "shell echo $(x) (b)")); [reflexivity|is_name|is_made|exact Logic.I|is_anything|is_open]|].
  destruct I as [<-|I]; [apply (SP_unclosed_directive some_files w_start Top "-include " [t_ "a "] (lit "y")); [reflexivity|cbn; tauto|eapply made_ofb_ok; [exact depb_ok|reflexivity]|is_anything|cbn; lia|is_open]|].
  destruct I as [<-|I]; [apply (SP_unclosed_dependencies some_files w_start Top [lit "a.o"; lit "b.o"] false [r_ "x"; t_ " b "] (lit "y"));
    [reflexivity|discriminate|is_names|eapply made_ofb_ok; [exact depb_ok|reflexivity]|is_anything|cbn; lia|cbn; lia|is_open|apply unreservedb_ok; reflexivity]|].
  destruct I as [<-|I]; [apply (SP_unclosed_command some_files w_start Top [lit "t"] true (lit "a.c") [t_ " echo "] (lit "x"));
    [reflexivity|discriminate|is_names|apply (forallb_all word_charb); [exact word_charb_ok|reflexivity]|is_made|is_anything|cbn; lia|is_open|apply unreservedb_ok; reflexivity]|].
  destruct I as [<-|I]; [apply (SP_unclosed_condition some_files w_start Top "ifeq" (lit "IfEq") 39%N [t_ "a "] (lit "x b") (lit " c"));
    [cbn; tauto|reflexivity|cbn; tauto|is_made|is_anything|cbn; lia|is_open|is_rest]|].
  destruct I as [<-|[]].
  eapply (SP_include some_files w_start Top false [t_ "none.mk"]); [reflexivity|eapply made_ofb_ok; [exact depb_ok|reflexivity]|speaks| |].
  - intros c J Q. cbn in J, Q. lia.
  - eapply IS_missing. reflexivity.
Qed.

(** A makefile: a comment, statements, two conditionals inside one another, the line
    `override y = 2` in the second branch of the inner one; anything can follow. *)
Definition crashing_text : str :=
  c_hash :: lit " a comment" ++ nl ++
  (show_all [SAssign (lit "x") OSet [t_ "a"]; SRule [lit "t"] false [r_ "x"] [[t_ "cmd"]]] ++
   if_text (Parens true) [r_ "x"] [t_ "b"] ++
   if_text (Quotes false true false) [r_ "x"] [t_ "b"] ++ show_all [SAssign (lit "x") OSet [t_ "c"]] ++ lit "else" ++ nl ++
   show_all [SDefine (lit "y") [[t_ "line"]]]) ++
  lit "override y = 2" ++ nl ++ mk "endif~endif~and so: on".
Lemma crashing_text_stops : file_stops no_files w_start crashing_text.
Proof.
  apply (FS_comment no_files w_start [] (lit " a comment")); [constructor|left; reflexivity|is_anything|intros I; cbn in I; repeat (destruct I as [I|I]; [discriminate I|]); destruct I|].
  eapply (FS_plain no_files w_start _ _ InElse (lit "override y = 2") (mk "endif~endif~and so: on")).
  - eapply RE_stmts; [is_formed| |].
    { eapply AA_cons; [eapply A_assign; [reflexivity|apply G_set]|]. eapply AA_cons; [eapply A_rule; [reflexivity|speaks|]|apply AA_nil]. intros c [<-|[]] J. cbn in J. lia. }
    eapply RE_then; [apply conditionsb_ok; vm_compute; reflexivity|speaks|speaks|].
    eapply RE_else; [apply conditionsb_ok; vm_compute; reflexivity|speaks|speaks|is_formed| |].
    { eapply AA_cons; [apply A_ignored; [vm_compute; reflexivity|apply I_assign]|apply AA_nil]. }
    rewrite <- (app_nil_r (show_all [SDefine _ _])). eapply RE_stmts; [is_formed| |apply RE_here].
    eapply AA_cons; [apply A_define; vm_compute; reflexivity|apply AA_nil].
  - apply (SP_modified no_files _ InElse "override " (lit "y") OSet [t_ "2"]); [vm_compute; reflexivity|cbn; tauto|is_name|is_value|exact Logic.I].
  - apply (forallb_all (fun c => (c <? 128)%N)); [|vm_compute; reflexivity]. intros c H. apply N.ltb_lt. exact H.
  - intros I. cbn in I. repeat (destruct I as [I|I]; [discriminate I|]). destruct I.
Qed.

(** * Texts *)
Fixpoint m_reach (fs : str -> file) (n : nat) (st : mstate) (t : text) : option (mstate * text) :=
  match n with
  | 0 => Some (st, t)
  | S n =>
      match t with
      | [] => None
      | _ => match m_act 500 st t with
             | Some (Step st' rest) => m_reach fs n st' rest
             | Some (Include soft names rest) => match m_take fs (m_run fs 50) soft names (closed st) with Some st' => m_reach fs n st' rest | None => None end
             | Some (Evaluate m rest) => match m_run fs 50 (MakeSpec.nested st) m with Some st1 => m_reach fs n (closed (resume st st1)) rest | None => None end
             | None => None
             end
      end
  end.
Lemma take_sound : forall fs fuel soft names st st', m_take fs (m_run fs fuel) soft names st = Some st' -> takes_in fs soft st names st'.
Proof.
  intros fs fuel soft names. induction names as [|n ns IHn]; intros st st' T; cbn [m_take] in T.
  - injection T as <-. apply TI_none.
  - destruct (fs n) as [k|k|t] eqn:F; [|discriminate|].
    + destruct soft; [|discriminate]. eapply TI_skip; [exact F|apply IHn; exact T].
    + destruct (m_run fs fuel (fresh st n) (file_text (number st n) t)) as [st2|] eqn:R; [|discriminate].
      eapply TI_file; [exact F|eapply run_sound; exact R|apply IHn; exact T].
Qed.
Lemma reach_sound : forall fs n st t st' t', m_reach fs n st t = Some (st', t') -> crashes fs st' t' -> crashes fs st t.
Proof.
  intros fs n. induction n as [|n IH]; intros st t st' t' E C; cbn [m_reach] in E; [injection E as <- <-; exact C|].
  destruct t as [|a t]; [discriminate|]. destruct (m_act 500 st (a :: t)) as [[st1 rest|soft names rest|m rest]|] eqn:A; [| | |discriminate]; apply act_sound in A.
  - eapply CR_later; [discriminate|exact A|eapply IH; eauto].
  - destruct A as (l & A1 & A2 & A3 & A4 & A5 & A6 & A7 & A8 & A9). destruct (m_take fs (m_run fs 50) soft names (closed st)) as [st1|] eqn:T; [|discriminate].
    eapply CR_past; eauto. eapply take_sound; exact T.
  - destruct A as (l & u & u' & A1 & A2 & A3 & A4 & A5 & A6 & A7 & A8 & A9 & A10). destruct (m_run fs 50 (MakeSpec.nested st) m) as [st1|] eqn:R; [|discriminate].
    apply run_sound in R. exact (CR_beyond fs st (a :: t) l rest u u' m st1 A1 A2 A3 A4 A5 A6 A7 A8 A9 A10 R (IH _ _ _ _ E C)).
Qed.
Definition ifdef_here (st : mstate) (t : text) : bool :=
  negb (commentb t) && match m_define st with None => true | _ => false end && match m_rule st with None => true | _ => negb (begins_charb c_tab t) end &&
  match line 500 t with Some (l, _) => solidb l && match word_of "ifdef" l with Some _ => true | None => false end | None => false end.
Lemma ifdef_here_fatal : forall st t, ifdef_here st t = true -> fatal st t.
Proof.
  intros st t E. unfold ifdef_here in E. apply andb_prop in E as [E E4]. apply andb_prop in E as [E E3]. apply andb_prop in E as [E1 E2].
  apply negb_true_iff in E1. apply commentb_no in E1. destruct (m_define st) eqn:D; [discriminate|].
  destruct (line 500 t) as [[l rest]|] eqn:L; [|discriminate]. apply andb_prop in E4 as [S W]. destruct (word_of "ifdef" l) as [u|] eqn:K; [|discriminate].
  eapply (FA_ifdef st t l "ifdef" u); [|cbn; tauto|apply word_of_some; exact K]. split; [exact E1|]. split; [|split; [exists rest; eapply line_sound; exact L|apply solidb_solid; exact S]].
  split; [|exact D]. intros Mr B. destruct (m_rule st); [|contradiction]. apply negb_true_iff in E3. exact (begins_charb_no _ _ E3 B).
Qed.
Lemma ifdef_crash : forall fs text n, match m_reach fs n m_begin (file_text 0 text) with Some (st, t) => match t with [] => false | _ => ifdef_here st t end | None => false end = true ->
  crashes fs m_begin (file_text 0 text).
Proof.
  intros fs text n E. destruct (m_reach fs n m_begin (file_text 0 text)) as [[st t]|] eqn:R; [|discriminate].
  eapply reach_sound; [exact R|]. destruct t as [|a t]; [discriminate|]. apply CR_here; [discriminate|]. apply ifdef_here_fatal. exact E.
Qed.
(** Continued lines, a substituted name, an include, and at last `ifdef`. *)
Definition crashing_make : str := mk "x = a \~   b~-include none rules.mk~$(x)y := $(inc)~t : u $(x)~@more~  ifdef inc~foo~endif~".
Lemma crashing_make_crashes : ascii_files some_files /\ asciis crashing_make /\ crashes some_files m_begin (file_text 0 crashing_make).
Proof.
  split; [exact some_files_ascii|]. split; [apply (forallb_all (fun c => (c <? 128)%N)); [intros c H; apply N.ltb_lt; exact H|vm_compute; reflexivity]|].
  apply (ifdef_crash _ _ 5). vm_compute. reflexivity.
Qed.
Lemma forgotten_known : exists s, acts_all no_files true w_start forgotten s.
Proof. destruct forgotten_acts as (s & A & _). exists s. exact A. Qed.
Lemma statements_known : exists s, acts_all some_files true w_start statements s /\ w_deaf s = false.
Proof. destruct statements_do as (s & D & _). exists s. apply (does_acts some_files); [exact D|reflexivity]. Qed.
Lemma missing_name : name (lit "none.mk") /\ some_files (lit "none.mk") = FOpenError 2.
Proof. split; [is_name|reflexivity]. Qed.

(** A recipe with a reference that is not closed. *)
Definition crashing_recipe : str :=
  show_all [SRule [lit "t"] false [t_ "d"] [[t_ "cmd"]]] ++ (c_tab :: lit "case $(x (in a) b") ++ nl ++ lit "y = 1".
Lemma crashing_recipe_stops : file_stops no_files w_start crashing_recipe.
Proof.
  eapply (FS_plain no_files w_start (show_all [SRule [lit "t"] false [t_ "d"] [[t_ "cmd"]]]) _ Top (c_tab :: lit "case $(x (in a) b") (lit "y = 1")).
  - rewrite <- (app_nil_r (show_all _)). eapply RE_stmts; [is_formed| |apply RE_here].
    eapply AA_cons; [eapply A_rule; [reflexivity|speaks|]|apply AA_nil]. intros c [<-|[]] J. cbn in J. lia.
  - eapply (SP_unclosed_recipe no_files _ Top _ [t_ "case "] (lit "x (in a) b")); [reflexivity|is_made|is_anything|is_open].
  - apply (forallb_all (fun c => (c <? 128)%N)); [|vm_compute; reflexivity]. intros c H. apply N.ltb_lt. exact H.
  - intros I. cbn in I. repeat (destruct I as [I|I]; [discriminate I|]). destruct I.
Qed.
Lemma unclosed_case : name (lit "CC") /\ anything (lit "filter $(a) b (c") /\ stays_open (lit "filter $(a) b (c").
Proof. split; [is_name|]. split; [is_anything|is_open]. Qed.

(** A reference that is not closed in the body of a definition. *)
Lemma crashing_body_stops : stops no_files w_start Top (mk "define x~echo a~echo $(y").
Proof.
  apply (SP_unclosed_body no_files w_start Top (lit "x") [[t_ "echo a"]] [t_ "echo "] (lit "y")); [reflexivity|is_name| |is_made|is_anything|is_open].
  apply NE_line; [eapply made_ofb_ok; [exact line_charb_ok|vm_compute; reflexivity]|discriminate|discriminate|constructor].
Qed.
Lemma unclosed_rule_case : Forall name [lit "a.o"; lit "b.o"] /\ anything (lit "SRC:.c .o (c)") /\ ~ In equals (lit "SRC:.c .o (c)") /\
  ~ In semicolon (lit "SRC:.c .o (c)") /\ stays_open (lit "SRC:.c .o (c)").
Proof. split; [is_names|]. split; [is_anything|]. split; [cbn; lia|]. split; [cbn; lia|is_open]. Qed.
