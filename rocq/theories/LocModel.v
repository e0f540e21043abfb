(** Model of src/source_location.rs. *)
From Verif Require Import Base.

(** src/source_location.rs:51-79 [Location].  Lines and columns are unbounded
    instead of u32.  The [tree_node] of an [EvalLocation] (an `Arc<Block>`
    compared with `==`) is represented by an identifier of its `==`-class; no
    code of the crate ever builds an [EvalLocation].  [TestLocation] only exists
    under cfg(test); it is kept so that the repository's tests can be replayed.
    The [Marker] wrapper (37-45) is dropped. *)
Inductive location : Type :=
| SourceLocation (line character : N) (filename : N)
| EvalLocation (tree_node : N) (line character : N)
| Synthetic
| TestLocation (line character : N).

(** src/source_location.rs:81-145 [PartialOrd for Location]. *)
Definition location_partial_cmp (a b : location) : option comparison :=
  let cmp al bl ac bc := if (al =? bl)%N then Some (ac ?= bc)%N else Some (al ?= bl)%N in
  match a, b with
  | SourceLocation al ac af, SourceLocation bl bc bf =>
      if (af =? bf)%N then cmp al bl ac bc else None
  | EvalLocation at_ al ac, EvalLocation bt bl bc =>
      if (at_ =? bt)%N then cmp al bl ac bc else None
  | Synthetic, Synthetic => Some Eq
  | TestLocation al ac, TestLocation bl bc => cmp al bl ac bc
  | _, _ => None
  end.

(** src/source_location.rs:156-177 [Location::advance_line]. *)
Definition advance_line (l : location) : location :=
  match l with
  | EvalLocation t line _ => EvalLocation t (line + 1) 1
  | SourceLocation line _ f => SourceLocation (line + 1) 1 f
  | Synthetic => Synthetic
  | TestLocation line _ => TestLocation (line + 1) 1
  end.

(** src/source_location.rs:181-208 [Location::advance_character]. *)
Definition advance_character (l : location) : location :=
  match l with
  | EvalLocation t line c => EvalLocation t line (c + 1)
  | SourceLocation line c f => SourceLocation line (c + 1) f
  | Synthetic => Synthetic
  | TestLocation line c => TestLocation line (c + 1)
  end.

(** The loop body of src/source_location.rs:253-259. *)
Definition advance_over (l : location) (s : str) : location :=
  fold_left (fun l c => if (c =? c_nl)%N then advance_line l else advance_character l) s l.

(** src/source_location.rs:216-219 [Located<String>] and [Located<&str>], which
    the model does not distinguish. *)
Record located := Located { l_loc : location; l_str : str }.

(** src/source_location.rs:221-225 [PartialOrd for Located]. *)
Definition located_partial_cmp (a b : located) : option comparison :=
  location_partial_cmp (l_loc a) (l_loc b).

(** src/source_location.rs:249-267 [Located<&str>::slice], also 287-289
    [Located<String>::slice]. *)
Definition located_slice (l : located) (start length : nat) : res located :=
  let s := l_str l in
  let* _ := rassert (start <? blen s) in
  let* _ := rassert (start + length <=? blen s) in
  let* '(skipped, rest) := bsplit start s in
  let* '(kept, _) := bsplit length rest in
  Ok (Located (advance_over (l_loc l) skipped) kept).
