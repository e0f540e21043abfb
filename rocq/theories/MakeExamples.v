(** Concrete makefiles for the theorems about makefiles as text. *)
From Coq Require Import String.
From Verif Require Import Base LocModel EvdModel AstModel EngineModel ModelTests EvdSpec DbSpec ParseSpec EvalSpec AstParseSpec EngineSpec MakeSpec
  EvdProofs ParseExamples EngineExamples MakeRun.
Open Scope string_scope.
Open Scope list_scope.

(** In the state [st] the variable [x] expands to [s], provably. *)
Definition m_value (st : mstate) (x s : str) : Prop :=
  exists v m, m_defs st x = Some v /\ value_is (m_defs st) v m /\ chars m = s.
Definition m_rule_is (st : mstate) (t : str) (deps recipe : list str) (double : bool) : Prop :=
  exists v, m_rules st t = Some v /\ List.map chars (tv_deps v) = deps /\ List.map chars (tv_recipe v) = recipe /\ tv_double v = double.

Definition strs_eqb (a b : list str) : bool := if list_eq_dec (list_eq_dec N.eq_dec) a b then true else false.
Lemma strs_eqb_eq : forall a b, strs_eqb a b = true -> a = b.
Proof. intros a b E. unfold strs_eqb in E. destruct (list_eq_dec _ a b); [assumption|discriminate]. Qed.

Definition value_check (st : mstate) (p : str * str) : bool :=
  match m_defs st (fst p) with
  | Some v => match value_with (expand 500 (m_defs st)) v with Some m => strs_eqb [chars m] [snd p] | None => false end
  | None => false
  end.
Lemma value_check_sound : forall st x s, value_check st (x, s) = true -> m_value st x s.
Proof.
  intros st x s E. unfold value_check in E. cbn [fst snd] in E. destruct (m_defs st x) as [v|] eqn:D; [|discriminate].
  destruct (value_with _ v) as [m|] eqn:V; [|discriminate]. apply strs_eqb_eq in E. injection E as E. exists v, m. split; [exact D|]. split; [|exact E].
  eapply value_with_sound; [|exact V]. intros t r. apply expand_sound.
Qed.
Definition rule_check (st : mstate) (p : str * list str * list str * bool) : bool :=
  let '(t, deps, recipe, double) := p in
  match m_rules st t with
  | Some v => strs_eqb (List.map chars (tv_deps v)) deps && strs_eqb (List.map chars (tv_recipe v)) recipe && Bool.eqb (tv_double v) double
  | None => false
  end.
Lemma rule_check_sound : forall st t deps recipe double, rule_check st (t, deps, recipe, double) = true -> m_rule_is st t deps recipe double.
Proof.
  intros st t deps recipe double E. unfold rule_check in E. destruct (m_rules st t) as [v|] eqn:R; [|discriminate].
  apply andb_prop in E as [E E3]. apply andb_prop in E as [E1 E2]. exists v. split; [exact R|].
  split; [apply strs_eqb_eq; exact E1|]. split; [apply strs_eqb_eq; exact E2|apply Bool.eqb_prop; exact E3].
Qed.

Lemma run_check : forall fs text vs rs,
  match m_run fs 100 m_begin (file_text 0 text) with
  | Some st => forallb (value_check st) vs && forallb (rule_check st) rs
  | None => false
  end = true ->
  exists st, runs fs m_begin (file_text 0 text) st /\
    (forall x s, In (x, s) vs -> m_value st x s) /\
    (forall t deps recipe double, In (t, deps, recipe, double) rs -> m_rule_is st t deps recipe double).
Proof.
  intros fs text vs rs E. destruct (m_run fs 100 m_begin (file_text 0 text)) as [st|] eqn:R; [|discriminate].
  apply andb_prop in E as [E1 E2]. rewrite forallb_forall in E1, E2. exists st. split; [eapply run_sound; exact R|]. split.
  - intros x s I. apply value_check_sound. apply E1. exact I.
  - intros t deps recipe double I. apply rule_check_sound. apply E2. exact I.
Qed.

(** A makefile with most kinds of lines, and a file it includes. *)
Definition big_text : str :=
  mk "x = a~ifneq ($(x),a)~y := d~else~y := $(x)b \~  c~endif~define z~foo $(x)~  bar~endef~-include none sub~t u: d $(y) ; first~@cmd $(x) \~@more~@last~some idle words~v :: w~z += end~".
Definition big_files (n : str) : file :=
  if list_eq_dec N.eq_dec n (lit "sub") then FText (mk "x += sub~r: s~@nothing~p: q~") else FOpenError 1.

Lemma big_ascii : ascii_files big_files /\ asciis big_text.
Proof.
  split.
  - intros n t E. unfold big_files in E. destruct (list_eq_dec N.eq_dec n (lit "sub")); [|discriminate]. injection E as <-. apply asciib_iff. reflexivity.
  - apply asciib_iff. reflexivity.
Qed.

Lemma big_runs : exists st, runs big_files m_begin (file_text 0 big_text) st /\
  m_value st (lit "x") (lit "a sub") /\ m_value st (lit "y") (lit "ab c") /\ m_value st (lit "z") (mk "foo a sub~  bar~ end") /\
  m_rule_is st (lit "t") [lit "d"; lit "ab"; lit "c"] [lit " first"; mk "cmd $(x) \~more"; lit "last"] false /\
  m_rule_is st (lit "u") [lit "d"; lit "ab"; lit "c"] [lit " first"; mk "cmd $(x) \~more"; lit "last"] false /\
  m_rule_is st (lit "v") [lit "w"] [] true /\
  m_rule_is st (lit "r") [lit "s"] [lit "nothing"] false.
Proof.
  destruct (run_check big_files big_text
    [(lit "x", lit "a sub"); (lit "y", lit "ab c"); (lit "z", mk "foo a sub~  bar~ end")]
    [(lit "t", [lit "d"; lit "ab"; lit "c"], [lit " first"; mk "cmd $(x) \~more"; lit "last"], false);
     (lit "u", [lit "d"; lit "ab"; lit "c"], [lit " first"; mk "cmd $(x) \~more"; lit "last"], false);
     (lit "v", [lit "w"], [], true); (lit "r", [lit "s"], [lit "nothing"], false)]) as (st & R & V & RS); [vm_compute; reflexivity|].
  exists st. split; [exact R|]. split; [apply V; cbn; tauto|]. split; [apply V; cbn; tauto|]. split; [apply V; cbn; tauto|].
  split; [apply RS; cbn; tauto|]. split; [apply RS; cbn; tauto|]. split; apply RS; cbn; tauto.
Qed.

(** References that replace the ends of words, in all places. *)
Definition subst_text : str :=
  mk "SRCS = a.c b.c~OBJS := $(SRCS:.c=.o)~LATER = $(OBJS:%.o=%.x)~ifeq ($(SRCS:.c=),a b)~$(OBJS:.o=.t) all: x$(SRCS:.c=.d) $(LATER)~@cc $(SRCS:.c=.o)~endif~END = y~".
Lemma subst_ascii : asciis subst_text.
Proof. apply asciib_iff. reflexivity. Qed.
Lemma subst_runs : exists st, runs no_files m_begin (file_text 0 subst_text) st /\
  m_value st (lit "OBJS") (lit "a.o b.o") /\ m_value st (lit "LATER") (lit "a.x b.x") /\
  m_rule_is st (lit "a.t") [lit "xa.d"; lit "b.d"; lit "a.x"; lit "b.x"] [lit "cc $(SRCS:.c=.o)"] false /\
  m_rule_is st (lit "b.t") [lit "xa.d"; lit "b.d"; lit "a.x"; lit "b.x"] [lit "cc $(SRCS:.c=.o)"] false /\
  m_rule_is st (lit "all") [lit "xa.d"; lit "b.d"; lit "a.x"; lit "b.x"] [lit "cc $(SRCS:.c=.o)"] false.
Proof.
  destruct (run_check no_files subst_text
    [(lit "OBJS", lit "a.o b.o"); (lit "LATER", lit "a.x b.x")]
    [(lit "a.t", [lit "xa.d"; lit "b.d"; lit "a.x"; lit "b.x"], [lit "cc $(SRCS:.c=.o)"], false);
     (lit "b.t", [lit "xa.d"; lit "b.d"; lit "a.x"; lit "b.x"], [lit "cc $(SRCS:.c=.o)"], false);
     (lit "all", [lit "xa.d"; lit "b.d"; lit "a.x"; lit "b.x"], [lit "cc $(SRCS:.c=.o)"], false)]) as (st & R & V & T); [vm_compute; reflexivity|].
  exists st. split; [exact R|]. split; [apply V; cbn; tauto|]. split; [apply V; cbn; tauto|]. split; [apply T; cbn; tauto|]. split; apply T; cbn; tauto.
Qed.
