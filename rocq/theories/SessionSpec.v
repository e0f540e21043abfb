(** Specification of several makefiles that are read into the same engine, one after the
    other. *)
From Coq Require Import String.
From Verif Require Import Base LocModel EvdModel AstModel EngineModel ParseModel ParseSpec EvdSpec DbSpec EvalSpec AstParseSpec EngineSpec MakeSpec WriteSpec StopSpec.
Local Open Scope nat_scope.

(** A call of `read_makefile`: the name of the makefile, and its text or the error of the
    reader that should supply it. *)
Definition call := (str * (N + str))%type.

(** The calls of a program, one after the other, whatever they return; the results.  (A
    panic ends the program.) *)
Fixpoint read_each (fs : str -> file) (fuel : nat) (w : world) (cs : list call) : res (world * list mresult) :=
  match cs with
  | [] => Ok (w, [])
  | (n, input) :: cs =>
      let* '(w, r) := read_makefile fs fuel w n input in
      let* '(w, rs) := read_each fs fuel w cs in
      Ok (w, r :: rs)
  end.
(** The calls end with [r], for a fresh engine and every large enough fuel. *)
Definition reads_each (fs : str -> file) (cs : list call) (r : res (world * list mresult)) : Prop :=
  exists enough, forall fuel, enough <= fuel -> read_each fs fuel world_new cs = r.

(** * Texts *)

(** Every makefile begins outside of conditionals, definitions and rules, with the
    variables, rules and numbers of files left by those before it.  (The rule that is open
    at the end of a makefile is lost.) *)
Inductive session (fs : str -> file) : mstate -> list call -> list mresult -> mstate -> Prop :=
| SE_end : forall st, session fs st [] [] st
| SE_failed : forall st n k cs rs st', session fs st cs rs st' -> session fs st ((n, inl k) :: cs) (MIOError k :: rs) st'
| SE_read : forall st n t st1 cs rs st', asciis t -> runs fs (fresh st n) (file_text (number st n) t) st1 ->
    session fs (MakeSpec.nested st1) cs rs st' -> session fs st ((n, inr t) :: cs) (MOk :: rs) st'.

(** * Statements *)

(** The same for makefiles written out from statements. *)
Inductive reads_in (fs : str -> file) : wstate -> list call -> list mresult -> wstate -> Prop :=
| RI_end : forall s, reads_in fs s [] [] s
| RI_failed : forall s n k cs rs s', reads_in fs s cs rs s' -> reads_in fs s ((n, inl k) :: cs) (MIOError k :: rs) s'
| RI_read : forall s n t ss s1 cs rs s', written ss t -> every well_formed ss -> acts_all fs true (begun s) ss s1 ->
    reads_in fs (begun s1) cs rs s' -> reads_in fs s ((n, inr t) :: cs) (MOk :: rs) s'.

(** A makefile in pieces: between them there is no rule to which a recipe could be added,
    and lines are not being ignored. *)
Inductive pieces (fs : str -> file) : wstate -> list (list stmt) -> wstate -> Prop :=
| PI_last : forall s p s', every well_formed p -> acts_all fs true s p s' -> pieces fs s [p] s'
| PI_more : forall s p s1 ps s', every well_formed p -> acts_all fs true s p s1 -> w_open s1 = None -> w_deaf s1 = false ->
    pieces fs s1 ps s' -> pieces fs s (p :: ps) s'.
