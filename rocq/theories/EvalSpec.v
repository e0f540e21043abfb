(** Specification of expansion: what text an expression stands for, on plain
    lists of characters that carry their source location.  No blocks, spans,
    name numbers or fuel. *)
From Verif Require Import Base LocModel EvdModel AstModel EngineModel EvdSpec ParseSpec.

(** A character with the place it was written at. *)
Notation placed := (N * location)%type (only parsing).
Definition chars (m : list placed) : str := List.map fst m.
(** A character that was not written anywhere. *)
Definition made (c : char) : placed := (c, Synthetic).

(** * Substitution references *)
Section Substitution.
  Context {A : Type} (ch : A -> char).
  Definition percent (c : char) : bool := (c =? 37)%N.

  (** The word [w] is [pk], [stem], [qk], and [qk] does not occur earlier in what
      follows [pk]. *)
  Definition matches (pk qk : str) (w stem : list A) : Prop :=
    exists a z, w = a ++ stem ++ z /\ List.map ch a = pk /\ List.map ch z = qk /\
      forall p q, List.map ch (stem ++ z) = p ++ qk ++ q -> length stem <= length p.

  (** A word that matches becomes [pr], stem, [qr]; any other word is kept. *)
  Inductive replaced (pk qk : str) (pr qr : list A) : list A -> list A -> Prop :=
  | R_match : forall w stem, matches pk qk w stem -> replaced pk qk pr qr w (pr ++ stem ++ qr)
  | R_keep : forall w, (forall stem, ~ matches pk qk w stem) -> replaced pk qk pr qr w w.

  (** The pattern and the replacement that the texts around `=` stand for: a key
      without (unquoted) `%` is a suffix; a key with `%` is split there, and so is
      the replacement. *)
  Inductive pattern : list A -> list A -> str -> str -> list A -> list A -> Prop :=
  | P_suffix : forall key repl o pend, unquote ch percent [] key = (o, Ended pend) ->
      pattern key repl [] (List.map ch (o ++ pend)) [] repl
  | P_stem : forall key repl o c rest ro rc rrest,
      unquote ch percent [] key = (o, Stopped c rest) ->
      unquote ch percent [] repl = (ro, Stopped rc rrest) ->
      pattern key repl (List.map ch o) (List.map ch rest) ro rrest
  | P_no_stem : forall key repl o c rest ro pend,
      unquote ch percent [] key = (o, Stopped c rest) ->
      unquote ch percent [] repl = (ro, Ended pend) ->
      pattern key repl (List.map ch o) (List.map ch rest) [] (ro ++ pend).

  (** The words of a text: separated by blanks; text made of blanks only counts
      as one empty word. *)
  Definition subst_words (t : list A) : list (list A) :=
    match t, split_at ch blank [] t with
    | [], _ => []
    | _, [] => [[]]
    | _, ws => ws
    end.

  (** Every word is replaced, the results are joined by [space]. *)
  Definition substituted (space : A) (key repl value out : list A) : Prop :=
    exists pk qk pr qr ws, pattern key repl pk qk pr qr /\
      Forall2 (replaced pk qk pr qr) (subst_words value) ws /\ out = join space ws.
End Substitution.

(** ** Values in several pieces *)
Section Pieces.
  Context {A : Type} (ch : A -> char).

  (** A text in pieces, as one text: every element with whether a piece begins with it. *)
  Definition piece_marks (p : list A) : list (bool * A) :=
    match p with [] => [] | x :: t => (true, x) :: List.map (pair false) t end.
  Definition in_pieces (ps : list (list A)) : list (bool * A) := concat (List.map piece_marks ps).
  Definition tch (m : bool * A) : char := ch (snd m).

  (** What comes before the last piece that begins in [l]. *)
  Fixpoint before_last (l : list (bool * A)) : option (list A) :=
    match l with
    | [] => None
    | m :: l' => match before_last l' with
                 | Some k => Some (snd m :: k)
                 | None => if fst m then Some [] else None
                 end
    end.

  (** What remains of a stem that [rest] follows: if pieces begin after the first element of the
      stem and not after [rest] begins, all that comes before the last of them; if not, the whole stem. *)
  Definition kept (stem rest : list (bool * A)) : list A :=
    match stem ++ firstn 1 rest with
    | [] => []
    | m :: l => match before_last l with Some k => snd m :: k | None => List.map snd stem end
    end.

  (** A word that matches becomes [pr], what remains of the stem, [qr]; any other word is kept. *)
  Inductive cut_replaced (pk qk : str) (pr qr : list A) : list (bool * A) -> list A -> Prop :=
  | CR_match : forall a stem z, matches tch pk qk (a ++ stem ++ z) stem -> List.map tch a = pk -> List.map tch z = qk ->
      cut_replaced pk qk pr qr (a ++ stem ++ z) (pr ++ kept stem z ++ qr)
  | CR_keep : forall w, (forall stem, ~ matches tch pk qk w stem) -> cut_replaced pk qk pr qr w (List.map snd w).

  Definition cut_substituted (space : A) (key repl : list A) (value : list (list A)) (out : list A) : Prop :=
    exists pk qk pr qr ws, pattern ch key repl pk qk pr qr /\
      Forall2 (cut_replaced pk qk pr qr) (subst_words tch (in_pieces value)) ws /\ out = join space ws.
End Pieces.

(** * Expansion *)

(** The definitions of variables, by name. *)
Definition env := str -> option ast.

(** A name that is not of the form name:key=replacement. *)
Definition is_subst (nm n k r : list placed) : Prop :=
  exists c q, nm = n ++ c :: k ++ q :: r /\ fst c = 58%N /\ fst q = 61%N /\
    ~ has fst 58%N (k ++ q :: r) /\ ~ has fst 61%N r.
Definition plain (nm : list placed) : Prop := forall n k r, ~ is_subst nm n k r.

(** Expressions whose expansion is one piece: not a concatenation of several
    parts. *)
Fixpoint one_piece (a : ast) : Prop :=
  match a with
  | AEmpty _ | AConst _ _ | AVar _ _ => True
  | APre _ b => length (b_content b) <= 1
  | AConcat _ [] => True
  | AConcat _ [a] => one_piece a
  | _ => False
  end.

(** No word goes on from one of these texts to the next. *)
Definition words_whole (ps : list (list placed)) : Prop := forall before after u x y v, ps = before ++ after ->
  concat before = u ++ [x] -> concat after = y :: v -> blank (fst x) = true \/ blank (fst y) = true.

(** The parts of an expression, in order: constant text, or text that is only
    known once a reference has been expanded. *)
Fixpoint parts (a : ast) : list (option (list placed)) :=
  match a with
  | AEmpty _ => []
  | AConst _ s => [Some (located_marks s)]
  | APre _ b => List.map (fun c => Some (cref_marks c)) (b_content b)
  | AConcat _ ns => concat (List.map parts ns)
  | _ => [None]
  end.
Definition ends_blank (p : option (list placed)) : Prop := exists u z, p = Some (u ++ [z]) /\ blank (fst z) = true.
Definition begins_blank (p : option (list placed)) : Prop := exists z u, p = Some (z :: u) /\ blank (fst z) = true.
(** Between any two parts there is a blank: no word can go on from one part to
    the next. *)
Definition blank_between (ps : list (option (list placed))) : Prop := forall before p q after,
  ps = before ++ p :: q :: after -> ends_blank p \/ begins_blank q.
Definition whole_words (a : ast) : Prop := blank_between (parts a).

(** A text in pieces of which at most one is not empty. *)
Definition in_one (ps : list (list placed)) : Prop := forall before after, ps = before ++ after -> concat before = [] \/ concat after = [].

(** [pieces_of e a ps d]: in the definitions [e] the expression [a] expands to the
    pieces [ps], one after the other, looking up exactly the variables [d].  A constant
    is one piece, and so is whatever a reference stands for. *)
Inductive pieces_of (e : env) : ast -> list (list placed) -> list str -> Prop :=
| X_empty : forall l, pieces_of e (AEmpty l) [] []
| X_const : forall l s, pieces_of e (AConst l s) [located_marks s] []
| X_pre : forall l b, pieces_of e (APre l b) (List.map cref_marks (b_content b)) []
| X_concat : forall l ns ps d, pieces_of_all e ns ps d -> pieces_of e (AConcat l ns) ps d
| X_undefined : forall l nm p1 d1, pieces_of e nm p1 d1 -> plain (concat p1) -> e (chars (concat p1)) = None ->
    pieces_of e (AVar l nm) [[]] (d1 ++ [chars (concat p1)])
| X_var : forall l nm p1 d1 v p2 d2, pieces_of e nm p1 d1 -> plain (concat p1) -> e (chars (concat p1)) = Some v ->
    pieces_of e v p2 d2 -> pieces_of e (AVar l nm) [concat p2] (d1 ++ chars (concat p1) :: d2)
| X_subst_undefined : forall l nm p1 d1 n k r, pieces_of e nm p1 d1 -> in_one p1 -> is_subst (concat p1) n k r ->
    e (chars n) = None -> pieces_of e (AVar l nm) [[]] (d1 ++ [chars n])
| X_subst : forall l nm p1 d1 n k r v p2 d2 out, pieces_of e nm p1 d1 -> in_one p1 -> is_subst (concat p1) n k r ->
    e (chars n) = Some v -> pieces_of e v p2 d2 -> cut_substituted fst (made 32%N) k r p2 out ->
    pieces_of e (AVar l nm) [out] (d1 ++ chars n :: d2)
with pieces_of_all (e : env) : list ast -> list (list placed) -> list str -> Prop :=
| X_nil : pieces_of_all e [] [] []
| X_cons : forall a ns p1 d1 p2 d2, pieces_of e a p1 d1 -> pieces_of_all e ns p2 d2 ->
    pieces_of_all e (a :: ns) (p1 ++ p2) (d1 ++ d2).
Scheme pieces_mut := Induction for pieces_of Sort Prop
  with pieces_all_mut := Induction for pieces_of_all Sort Prop.

(** [expands e a m d]: [a] expands to the text [m]. *)
Definition expands (e : env) (a : ast) (m : list placed) (d : list str) : Prop := exists ps, pieces_of e a ps d /\ m = concat ps.
Definition expands_all (e : env) (ns : list ast) (m : list placed) (d : list str) : Prop := exists ps, pieces_of_all e ns ps d /\ m = concat ps.

(** * States *)

(** The definitions of variables in a state of the engine. *)
Definition world_env (w : world) : env := fun nm =>
  match variable_name (w_names w) nm with
  | Some id => option_map v_ast (get_variable (w_db w) id)
  | None => None
  end.

(** Expressions made of ASCII constants and well-formed evaluated text. *)
Fixpoint ast_ok (a : ast) : Prop :=
  match a with
  | AEmpty _ => True
  | AConst _ s => asciis (l_str s)
  | APre _ b => wf_block b
  | AConcat _ ns => fold_right (fun n P => ast_ok n /\ P) True ns
  | AVar _ c | AEval _ c | AStrip _ c | AWords _ c => ast_ok c
  | AWord _ i c => ast_ok i /\ ast_ok c
  end.

(** Every variable of the database has an interned name and such a value. *)
Definition world_ok (w : world) : Prop := forall id v, get_variable (w_db w) id = Some v ->
  N.to_nat id < length (n_vars (w_names w)) /\ ast_ok (v_ast v).

(** No `$(eval)` anywhere in the expression. *)
Fixpoint eval_free (a : ast) : Prop :=
  match a with
  | AEmpty _ | AConst _ _ | APre _ _ => True
  | AConcat _ ns => fold_right (fun n P => eval_free n /\ P) True ns
  | AVar _ c | AStrip _ c | AWords _ c => eval_free c
  | AEval _ _ => False
  | AWord _ i c => eval_free i /\ eval_free c
  end.

(** Only names were added. *)
Definition same_but_names (w w' : world) : Prop := w_db w' = w_db w /\ w_cmd w' = w_cmd w /\
  n_files (w_names w') = n_files (w_names w) /\ exists more, n_vars (w_names w') = n_vars (w_names w) ++ more.

(** * Evaluating a list of expressions, one after the other *)
Inductive eval_seq (run : world -> ast -> res (world * block)) : world -> list ast -> world -> list block -> Prop :=
| ES_nil : forall w, eval_seq run w [] w []
| ES_cons : forall w a w1 b ns w2 bs, run w a = Ok (w1, b) -> eval_seq run w1 ns w2 bs ->
    eval_seq run w (a :: ns) w2 (b :: bs).

(** * Ranked definitions *)

(** Everything the expression refers to directly has a rank below [k]; a
    substitution reference is written in one piece. *)
Fixpoint refs_below (e : env) (rank : str -> nat) (k : nat) (a : ast) : Prop :=
  match a with
  | AEmpty _ | AConst _ _ | APre _ _ => True
  | AConcat _ ns => fold_right (fun n P => refs_below e rank k n /\ P) True ns
  | AVar _ nm => refs_below e rank k nm /\ forall ps d, pieces_of e nm ps d ->
      (plain (concat ps) -> rank (chars (concat ps)) < k) /\
      (forall n key r, is_subst (concat ps) n key r -> rank (chars n) < k /\ in_one ps)
  | AEval _ _ | AStrip _ _ | AWord _ _ _ | AWords _ _ => False
  end.

(** * Circular definitions *)

(** Expanding the expression needs the value of a variable of the set [S]. *)
Inductive needs (e : env) (S : str -> Prop) : ast -> Prop :=
| N_var : forall l nm m d, expands e nm m d -> plain m -> S (chars m) -> needs e S (AVar l nm)
| N_subst : forall l nm ps d n k r, pieces_of e nm ps d -> in_one ps -> is_subst (concat ps) n k r -> S (chars n) ->
    needs e S (AVar l nm)
| N_name : forall l nm, needs e S nm -> needs e S (AVar l nm)
| N_concat : forall l pre m d a post, expands_all e pre m d -> needs e S a -> needs e S (AConcat l (pre ++ a :: post))
| N_eval : forall l c, needs e S c -> needs e S (AEval l c).

(** * Variables an expression looks up *)

(** Expanding the expression looks up the variable called [x]. *)
Inductive looks_up (e : env) : ast -> str -> Prop :=
| L_var : forall l nm m d, expands e nm m d -> plain m -> looks_up e (AVar l nm) (chars m)
| L_subst : forall l nm ps d n k r, pieces_of e nm ps d -> in_one ps -> is_subst (concat ps) n k r -> looks_up e (AVar l nm) (chars n)
| L_name : forall l nm x, looks_up e nm x -> looks_up e (AVar l nm) x
| L_value : forall l nm m d v x, expands e nm m d -> plain m -> e (chars m) = Some v -> looks_up e v x ->
    looks_up e (AVar l nm) x
| L_subst_value : forall l nm ps d n k r v x, pieces_of e nm ps d -> in_one ps -> is_subst (concat ps) n k r ->
    e (chars n) = Some v -> looks_up e v x -> looks_up e (AVar l nm) x
| L_part : forall l ns a x, In a ns -> looks_up e a x -> looks_up e (AConcat l ns) x.

(** * Evaluation *)

(** The variables of the set [sens] are those called [d]. *)
Definition records (w : world) (sens : list N) (d : list str) : Prop :=
  (forall id, In id sens <-> exists nm, In nm d /\ variable_name (w_names w) nm = Some id) /\
  (forall nm, In nm d -> variable_name (w_names w) nm <> None).

(** Evaluating [a] in [w] ends (for every large enough fuel) with the text and
    provenance [m] and the sensitivity [d], and changes nothing but the name
    cache. *)
Definition evaluates (fs : str -> file) (w : world) (a : ast) (m : list placed) (d : list str) : Prop :=
  exists enough, forall fuel, enough <= fuel -> exists w' b, eval_fuel fs fuel w a = Ok (w', b) /\
    block_marks b = m /\ block_into_string b = Ok (chars m) /\ records w' (b_sens b) d /\ same_but_names w w'.

(** Evaluating [a] in [w] never ends, however much fuel there is. *)
Definition diverges (fs : str -> file) (w : world) (a : ast) : Prop :=
  forall fuel, eval_fuel fs fuel w a = OutOfFuel.

(** `$(name)`, written at [s]. *)
Definition reference (l : location) (s : located) : ast := AVar l (AConst l s).

(** * Substitution references as documented by GNU make *)
Section Intended.
  Context {A : Type} (ch : A -> char).

  (** The stem may contain [qk]; without a stem in the replacement the whole word
      is replaced. *)
  Inductive intended (pk qk : str) (pr : list A) (qr : option (list A)) : list A -> list A -> Prop :=
  | I_match : forall a stem z, List.map ch a = pk -> List.map ch z = qk ->
      intended pk qk pr qr (a ++ stem ++ z) (match qr with Some q => pr ++ stem ++ q | None => pr end)
  | I_keep : forall w, (forall a stem z, w = a ++ stem ++ z -> List.map ch a = pk -> List.map ch z = qk -> False) ->
      intended pk qk pr qr w w.

  Inductive intended_pattern : list A -> list A -> str -> str -> list A -> option (list A) -> Prop :=
  | IP_suffix : forall key repl o pend, unquote ch percent [] key = (o, Ended pend) ->
      intended_pattern key repl [] (List.map ch (o ++ pend)) [] (Some repl)
  | IP_stem : forall key repl o c rest ro rc rrest,
      unquote ch percent [] key = (o, Stopped c rest) ->
      unquote ch percent [] repl = (ro, Stopped rc rrest) ->
      intended_pattern key repl (List.map ch o) (List.map ch rest) ro (Some rrest)
  | IP_whole : forall key repl o c rest ro pend,
      unquote ch percent [] key = (o, Stopped c rest) ->
      unquote ch percent [] repl = (ro, Ended pend) ->
      intended_pattern key repl (List.map ch o) (List.map ch rest) (ro ++ pend) None.

  Definition intended_out (space : A) (key repl value out : list A) : Prop :=
    exists pk qk pr qr ws, intended_pattern key repl pk qk pr qr /\
      Forall2 (intended pk qk pr qr) (split_at ch blank [] value) ws /\ out = join space ws.
End Intended.
