(** Specification of source positions, without folding over characters. *)
From Verif Require Import Base LocModel.

(** The place a location counts lines in: a file, an evaluation tree, the
    synthetic text or the test text. *)
Definition same_source (a b : location) : Prop :=
  match a, b with
  | SourceLocation _ _ f, SourceLocation _ _ g => f = g
  | EvalLocation t _ _, EvalLocation u _ _ => t = u
  | Synthetic, Synthetic => True
  | TestLocation _ _, TestLocation _ _ => True
  | _, _ => False
  end.

Definition loc_line (l : location) : N :=
  match l with SourceLocation n _ _ | EvalLocation _ n _ | TestLocation n _ => n | Synthetic => 0%N end.
Definition loc_col (l : location) : N :=
  match l with SourceLocation _ n _ | EvalLocation _ _ n | TestLocation _ n => n | Synthetic => 0%N end.

(** Lexicographic order on positions. *)
Definition earlier (a b : location) : Prop :=
  (loc_line a < loc_line b \/ (loc_line a = loc_line b /\ loc_col a < loc_col b))%N.

Definition newlines (s : str) : nat := length (filter (N.eqb c_nl) s).

(** The characters after the last newline. *)
Fixpoint last_line (s : str) : str :=
  match s with
  | [] => []
  | c :: s' => if existsb (N.eqb c_nl) s' then last_line s'
               else if (c =? c_nl)%N then s' else c :: s'
  end.

(** A location moved over some text: one line further for each newline; the
    column grows by the length if there was none, and otherwise counts from the
    last newline, starting at 1. *)
Definition moved (l : location) (s : str) : location :=
  match l with
  | SourceLocation n c f =>
      SourceLocation (n + N.of_nat (newlines s))%N (if (newlines s =? 0)%nat then c + N.of_nat (length s) else 1 + N.of_nat (length (last_line s)))%N f
  | EvalLocation t n c =>
      EvalLocation t (n + N.of_nat (newlines s))%N (if (newlines s =? 0)%nat then c + N.of_nat (length s) else 1 + N.of_nat (length (last_line s)))%N
  | Synthetic => Synthetic
  | TestLocation n c =>
      TestLocation (n + N.of_nat (newlines s))%N (if (newlines s =? 0)%nat then c + N.of_nat (length s) else 1 + N.of_nat (length (last_line s)))%N
  end.
