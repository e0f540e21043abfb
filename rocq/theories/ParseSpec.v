(** Specifications of the text-level parsers, on plain lists of characters.
    Most are generic in the element type, so that they apply both to texts and
    to texts whose characters carry their source location; [ch] gives the
    character of an element. *)
From Verif Require Import Base ParseModel.

Fixpoint drop_while {A} (p : A -> bool) (l : list A) : list A :=
  match l with
  | [] => []
  | a :: l' => if p a then drop_while p l' else l
  end.
Fixpoint take_while {A} (p : A -> bool) (l : list A) : list A :=
  match l with
  | [] => []
  | a :: l' => if p a then a :: take_while p l' else []
  end.

(** Space or tab. *)
Definition blank (c : char) : bool := (c =? 32)%N || (c =? 9)%N.
Definition backslash (c : char) : bool := (c =? 92)%N.

(** * Logical lines *)
Section Lines.
  Context {A : Type} (ch : A -> char).

  Definition has (c : char) (l : list A) : Prop := exists a, In a l /\ ch a = c.

  (** Without leading blanks; without trailing blanks and backslashes. *)
  Definition lstrip (l : list A) : list A := drop_while (fun a => blank (ch a)) l.
  Definition rstrip (l : list A) : list A :=
    rev (drop_while (fun a => blank (ch a) || backslash (ch a)) (rev l)).

  (** Number of backslashes at the end; an odd number continues the line. *)
  Definition tail_backslashes (l : list A) : nat :=
    length (take_while (fun a => backslash (ch a)) (rev l)).
  Definition continued (l : list A) : bool := Nat.odd (tail_backslashes l).

  (** What remains of a continued line: a single backslash is removed, in GNU
      mode together with the blanks (and backslashes) before it, but never the
      first character of a line of two or more; an odd number greater than one is
      halved. *)
  Definition clean (mode : compliance) (l : list A) : list A :=
    let k := tail_backslashes l in
    if k =? 1 then
      match mode with
      | POSIX => removelast l
      | GNU =>
          if length l <? 2 then []
          else match rstrip l with [] => firstn 1 l | r => r end
      end
    else firstn (length l - k + k / 2) l.

  (** [logical_line t ls last rest]: [t] begins with the continued lines [ls]
      (without their newlines), followed by the line [last], and [rest] is what
      follows that line. *)
  Inductive logical_line : list A -> list (list A) -> list A -> list A -> Prop :=
  | LL_end : forall l, ~ has c_nl l -> continued l = false -> logical_line l [] l []
  | LL_last : forall l n rest, ~ has c_nl l -> continued l = false -> ch n = c_nl ->
      logical_line (l ++ n :: rest) [] l rest
  | LL_open : forall l, ~ has c_nl l -> continued l = true -> logical_line l [l] [] []
  | LL_more : forall l n t ls last rest, ~ has c_nl l -> continued l = true -> ch n = c_nl ->
      logical_line t ls last rest -> logical_line (l ++ n :: t) (l :: ls) last rest.

  Definition nonempty (l : list A) : bool := match l with [] => false | _ => true end.

  (** The pieces that are joined by single spaces. *)
  Definition pieces (mode : compliance) (strip : bool) (ls : list (list A)) (last : list A)
    : list (list A) :=
    match ls with
    | [] => [if strip then lstrip last else last]
    | l :: ls' =>
        (if strip then filter nonempty (List.map (fun l => clean mode (lstrip l)) ls)
         else clean mode l :: filter nonempty (List.map (fun l => clean mode (lstrip l)) ls'))
        ++ [lstrip last]
    end.

  Fixpoint join (space : A) (ps : list (list A)) : list A :=
    match ps with
    | [] => []
    | [p] => p
    | p :: ps' => p ++ space :: join space ps'
    end.
End Lines.

(** * Unquoting *)
Section Unquote.
  Context {A : Type} (ch : A -> char) (stop : char -> bool).

  (** Reading ends at an unquoted stop character, or with the text; [pending] are
      then the backslashes it ends with. *)
  Inductive unquote_end := Stopped (c : A) (rest : list A) | Ended (pending : list A).

  (** Read [t] after the backslashes [pend]: a stop character after an even number
      of backslashes ends the reading, after an odd number it is part of the text;
      in both cases half of the backslashes (rounded down) are kept.  Backslashes
      before any other character are kept. *)
  Fixpoint unquote (pend t : list A) : list A * unquote_end :=
    match t with
    | [] => ([], Ended pend)
    | c :: t' =>
        if backslash (ch c) then unquote (pend ++ [c]) t'
        else if stop (ch c) then
          if Nat.even (length pend) then (firstn (length pend / 2) pend, Stopped c t')
          else let '(o, e) := unquote [] t' in (firstn (length pend / 2) pend ++ c :: o, e)
        else let '(o, e) := unquote [] t' in (pend ++ c :: o, e)
    end.
End Unquote.

(** * File lists *)
Section FileList.
  Context {A : Type} (ch : A -> char) (stop : char -> bool).

  Definition word_and (w : list A) (ws : list (list A)) : list (list A) :=
    match w with [] => ws | _ => w :: ws end.

  (** What is kept of the backslashes [pend] that end the text, after [o] was
      read from a rest of length [n]: half of them; but all of an odd number, if
      no character of that rest was dropped before, and else the larger half. *)
  Definition final_backslashes (n : nat) (o pend : list A) : list A :=
    let k := length pend in
    if Nat.even k then firstn (k / 2) pend
    else if length (o ++ pend) =? n then pend else firstn (k - k / 2) pend.

  (** The non-empty words of [t]: texts up to unquoted stop characters. *)
  Inductive file_words : list A -> list (list A) -> Prop :=
  | FW_nil : file_words [] []
  | FW_stop : forall t o c rest ws, unquote ch stop [] t = (o, Stopped c rest) ->
      file_words rest ws -> file_words t (word_and o ws)
  | FW_end : forall t o pend, t <> [] -> unquote ch stop [] t = (o, Ended pend) ->
      file_words t (word_and (o ++ final_backslashes (length t) o pend) []).

  (** Text without backslashes: split at stop characters, empty words dropped. *)
  Fixpoint split_at (w t : list A) : list (list A) :=
    match t with
    | [] => word_and w []
    | c :: t' => if stop (ch c) then word_and w (split_at [] t') else split_at (w ++ [c]) t'
    end.

  (** A leading "./" is dropped, once. *)
  Definition drop_dot_slash (w : list A) : list A :=
    match w with
    | a :: b :: w' => if ((ch a =? 46) && (ch b =? 47))%N then w' else w
    | _ => w
    end.
End FileList.

(** * Assignments *)
Section Operators.
  Context {A : Type} (ch : A -> char).

  (** Characters that cannot be part of a variable name: blanks, line ends and
      other white space, and the first characters `:`, `=`, `!`, `?`, `+` of the operators. *)
  Definition name_end (c : char) : Prop :=
    In c [9; 10; 11; 12; 13; 32]%N \/ In c [58; 61; 33; 63; 43]%N.

  (** Everything that is blank. *)
  Definition all_blank (l : list A) : Prop := forall a, In a l -> blank (ch a) = true.
End Operators.

(** * The colon of a rule *)
Section Colon.
  Context {A : Type} (ch : A -> char).

  Definition letter (c : char) : bool := ((65 <=? c) && (c <=? 90) || (97 <=? c) && (c <=? 122))%N.
  Definition any_slash (c : char) : bool := ((c =? 47) || (c =? 92))%N.
  Definition space_or_paren (c : char) : bool := existsb (N.eqb c) [9; 10; 11; 12; 13; 32; 40]%N.

  (** The colon between [pre] and [post] belongs to a drive specification: a
      slash or backslash follows, and a letter precedes it which is the first
      character or follows white space or an opening parenthesis. *)
  Definition drive (pre post : list A) : bool :=
    match post, rev pre with
    | c :: _, [a] => any_slash (ch c) && letter (ch a)
    | c :: _, a :: b :: _ => any_slash (ch c) && letter (ch a) && space_or_paren (ch b)
    | _, _ => false
    end.

  (** What the code tests: the last two characters in the other order. *)
  Definition drive_swapped (pre post : list A) : bool :=
    match post, rev pre with
    | c :: _, [a] => any_slash (ch c) && letter (ch a)
    | c :: _, a :: b :: _ => any_slash (ch c) && letter (ch b) && space_or_paren (ch a)
    | _, _ => false
    end.

  (** [rule_colon drv t pre post]: the first unquoted colon of [t] that is not a
      drive's according to [drv]; [pre] is the (unquoted) text before it.  With
      [post] = None there is no such colon, and [pre] is all text. *)
  Inductive rule_colon (drv : list A -> list A -> bool) : list A -> list A -> option (list A) -> Prop :=
  | RC_none : forall t o pend, unquote ch (fun c => c =? 58)%N [] t = (o, Ended pend) ->
      rule_colon drv t (o ++ pend) None
  | RC_found : forall t o c rest, unquote ch (fun c => c =? 58)%N [] t = (o, Stopped c rest) -> drv o rest = false ->
      rule_colon drv t o (Some rest)
  | RC_drive : forall t o c rest pre post, unquote ch (fun c => c =? 58)%N [] t = (o, Stopped c rest) -> drv o rest = true ->
      rule_colon drv rest pre post -> rule_colon drv t (o ++ c :: pre) post.
End Colon.
