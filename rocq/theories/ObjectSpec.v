(** Lists of sources as makefiles write them: what C50_objects and C23_found_twice_refuted are about. *)
From Coq Require Import String.
From Verif Require Import Base LocModel EvdModel AstModel EngineModel EvdSpec DbSpec ParseModel ParseSpec EvalSpec EngineSpec MakeSpec WriteSpec.

(** A word that is not empty. *)
Definition file_name (x : str) : Prop := x <> [] /\ Forall word_char x.

(** [from] is found in [n ++ from] at the end only. *)
Definition ends_once (from n : str) : Prop := forall a b, n ++ from = a ++ from ++ b -> b = [].

(** * Lists of names, on one line or on several *)

(** [listed x ws t]: the lines [t] make the variable [x] the list of the names [ws]: on one line; on
    several lines that end with a backslash, the first of them with or without names; with `+=`. *)
Inductive listed (x : str) : list str -> str -> Prop :=
| LI_line : forall ws, Forall file_name ws -> listed x ws (x ++ lit " = " ++ join c_space ws ++ nl)
| LI_long : forall (down : bool) l ls, Forall (fun l => l <> [] /\ Forall file_name l) (l :: ls) -> (down = true \/ ls <> []) ->
    listed x (concat (l :: ls)) (x ++ (if down then lit " =" ++ continues else lit " = ") ++ join c_space l ++
      concat (List.map (fun l => continues ++ join c_space l) ls) ++ nl)
| LI_more : forall ws t ws', listed x ws t -> ws' <> [] -> Forall file_name ws' ->
    listed x (ws ++ ws') (t ++ x ++ lit " += " ++ join c_space ws' ++ nl).

