(** Shared vocabulary of the model: results with panics and fuel, characters,
    strings, UTF-8.  Nothing in this file is specific to hastur. *)
From Coq Require Export List NArith Arith Bool Lia.
From Coq Require Import String Ascii.
Export ListNotations.
Open Scope nat_scope.

(** The outcome of running a Rust function: a value, a panic, or (only for
    model functions that recurse on fuel) running out of fuel.  Rust semantics,
    used by the models of all files of /repo/src. *)
Inductive res (A : Type) : Type :=
| Ok (a : A)
| Panic
| OutOfFuel.
Arguments Ok {A} a.
Arguments Panic {A}.
Arguments OutOfFuel {A}.

(** Sequencing of Rust statements: a panic ends the computation (Rust semantics). *)
Definition bind {A B} (r : res A) (f : A -> res B) : res B :=
  match r with
  | Ok a => f a
  | Panic => Panic
  | OutOfFuel => OutOfFuel
  end.

Notation "'let*' x ':=' e 'in' k" := (bind e (fun x => k))
  (at level 200, x name, e at level 100, k at level 200, right associativity).
Notation "'let*' ' p ':=' e 'in' k" := (bind e (fun p => k))
  (at level 200, p strict pattern, e at level 100, k at level 200, right associativity).

(** `a - b` on usize: the debug profile panics on underflow (Rust semantics; for
    example src/evaluated/nom/mod.rs:58, 69, src/evaluated/block_span.rs:202). *)
Definition usub (a b : nat) : res nat := if b <=? a then Ok (a - b) else Panic.

(** `assert!(b)` (Rust semantics; for example src/source_location.rs:250-251). *)
Definition rassert (b : bool) : res unit := if b then Ok tt else Panic.

(** `opt.unwrap()` / `opt.expect(..)` (Rust semantics; for example
    src/parsers/ast/mod.rs:30, src/parsers/targets/mod.rs:281). *)
Definition unwrap {A} (o : option A) : res A :=
  match o with Some a => Ok a | None => Panic end.

(** `.map(f).collect()` where [f] may panic (Rust semantics; used for
    src/evaluated/mod.rs:148-161). *)
Fixpoint mapM {A B} (f : A -> res B) (l : list A) : res (list B) :=
  match l with
  | [] => Ok []
  | a :: l' => let* b := f a in let* bs := mapM f l' in Ok (b :: bs)
  end.

(** A `char` is its code point; a `str`/`String` is the list of its characters
    (Rust std, used in all files of /repo/src). *)
Notation char := N (only parsing).
Notation str := (list N) (only parsing).

(** Rust's `char::len_utf8` (std; called at src/evaluated/block_span.rs:202,
    src/evaluated/nom/mod.rs:208). *)
Definition len_utf8 (c : char) : nat :=
  if (c <? 128)%N then 1
  else if (c <? 2048)%N then 2
  else if (c <? 65536)%N then 3 else 4.

(** Rust's `char::encode_utf8`: the bytes of a character (std; called at
    src/evaluated/nom/mod.rs:208, 227). *)
Definition utf8 (c : char) : list N :=
  if (c <? 128)%N then [c]
  else if (c <? 2048)%N then [192 + c / 64; 128 + c mod 64]%N
  else if (c <? 65536)%N then
    [224 + c / 4096; 128 + (c / 64) mod 64; 128 + c mod 64]%N
  else [240 + c / 262144; 128 + (c / 4096) mod 64; 128 + (c / 64) mod 64;
        128 + c mod 64]%N.

(** `str::len`: number of bytes (std; called at src/source_location.rs:250,
    src/evaluated/nodes.rs:55). *)
Fixpoint blen (s : str) : nat :=
  match s with
  | [] => 0
  | c :: s' => len_utf8 c + blen s'
  end.

(** `str::as_bytes` (std; called at src/evaluated/nom/mod.rs:197, 215). *)
Definition bytes (s : str) : list N := flat_map utf8 s.

(** `(&s[..n], &s[n..])`: a panic when [n] is past the end or inside a
    character (std; src/source_location.rs:253, 265). *)
Fixpoint bsplit (n : nat) (s : str) : res (str * str) :=
  match n, s with
  | 0, _ => Ok ([], s)
  | S _, [] => Panic
  | S _, c :: s' =>
      if len_utf8 c <=? n then
        let* '(a, b) := bsplit (n - len_utf8 c) s' in Ok (c :: a, b)
      else Panic
  end.

(** `==` on strings (std). *)
Fixpoint str_eqb (a b : str) : bool :=
  match a, b with
  | [], [] => true
  | x :: a', y :: b' => (x =? y)%N && str_eqb a' b'
  | _, _ => false
  end.

(** ASCII text: the characters for which byte counts and character counts
    agree.  Vocabulary of the specifications, models no code. *)
Definition ascii (c : char) : Prop := (c < 128)%N.
Definition asciis (s : str) : Prop := Forall ascii s.
Definition asciib (s : str) : bool := forallb (fun c => (c <? 128)%N) s.

(** Coq string literals as model strings: the string literals of /repo/src. *)
Fixpoint lit (s : string) : str :=
  match s with
  | EmptyString => []
  | String a s' => N_of_ascii a :: lit s'
  end.

(** Named characters: the character literals of /repo/src. *)
Definition c_nl : char := 10%N.
Definition c_cr : char := 13%N.
Definition c_tab : char := 9%N.
Definition c_space : char := 32%N.
Definition c_hash : char := 35%N.
Definition c_dollar : char := 36%N.
Definition c_percent : char := 37%N.
Definition c_lparen : char := 40%N.
Definition c_rparen : char := 41%N.
Definition c_comma : char := 44%N.
Definition c_slash : char := 47%N.
Definition c_colon : char := 58%N.
Definition c_semi : char := 59%N.
Definition c_eq : char := 61%N.
Definition c_bslash : char := 92%N.

(** src/types.rs:3 [Set]: sets of variable names (`im::HashSet`) as
    duplicate-free lists; only membership is meaningful.  `contains`, `insert`
    and `union`. *)
Definition mem (x : N) (s : list N) : bool := existsb (N.eqb x) s.
Definition set_add (x : N) (s : list N) : list N := if mem x s then s else s ++ [x].
Definition set_union (s t : list N) : list N := fold_left (fun acc x => set_add x acc) t s.

(** src/types.rs:4 [Map]: finite maps (`im::HashMap`) keyed by [N] as association
    lists with at most one entry per key.  `get` and `insert`. *)
Section Map.
  Context {V : Type}.
  Definition map := list (N * V).
  Fixpoint mget (k : N) (m : map) : option V :=
    match m with
    | [] => None
    | (k', v) :: m' => if (k =? k')%N then Some v else mget k m'
    end.
  Definition mset (k : N) (v : V) (m : map) : map :=
    (k, v) :: filter (fun kv => negb (fst kv =? k)%N) m.
End Map.
Arguments map : clear implicits.
