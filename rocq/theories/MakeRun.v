(** An executable reading of [MakeSpec]: it finds the runs of concrete makefiles, and
    what it finds is proved to be a run.  Used for examples only. *)
From Coq Require Import String ZArith.
From Verif Require Import Base LocModel EvdModel AstModel EngineModel EvdSpec DbSpec ParseModel ParseSpec EvalSpec AstParseSpec EngineSpec MakeSpec
  ParseProofs EvalProofs4 PieceProofs.
Local Open Scope nat_scope.

Definition is (c : char) (a : placed) : bool := (fst a =? c)%N.
Definition hasb (c : char) (t : text) : bool := existsb (is c) t.

Lemma hasb_no : forall c t, hasb c t = false -> ~ has fst c t.
Proof.
  intros c t H (a & I & E). assert (X : hasb c t = true); [|congruence].
  apply existsb_exists. exists a. split; [exact I|]. apply N.eqb_eq. exact E.
Qed.

(** The text before and after the first character [c]. *)
Fixpoint cut (c : char) (t : text) : option (text * placed * text) :=
  match t with
  | [] => None
  | a :: t' => if is c a then Some ([], a, t') else
      match cut c t' with Some (p, x, r) => Some (a :: p, x, r) | None => None end
  end.
Lemma cut_some : forall c t p x r, cut c t = Some (p, x, r) -> t = p ++ x :: r /\ ~ has fst c p /\ fst x = c.
Proof.
  intros c. induction t as [|a t IH]; intros p x r E; [discriminate|]. cbn in E. destruct (is c a) eqn:Q.
  - injection E as <- <- <-. split; [reflexivity|]. split; [intros (b & [] & _)|]. apply N.eqb_eq. exact Q.
  - destruct (cut c t) as [[[p' x'] r']|] eqn:K; [|discriminate]. injection E as <- <- <-.
    destruct (IH _ _ _ eq_refl) as (-> & N & F). split; [reflexivity|]. split; [|exact F].
    intros (b & [<-|I] & G); [unfold is in Q; rewrite G, N.eqb_refl in Q; discriminate|]. apply N. exists b. auto.
Qed.
Lemma cut_none : forall c t, cut c t = None -> ~ has fst c t.
Proof.
  intros c. induction t as [|a t IH]; intros E (b & I & G); [destruct I|]. cbn in E. destruct (is c a) eqn:Q; [discriminate|].
  destruct (cut c t) as [[[p' x'] r']|] eqn:K; [discriminate|]. destruct I as [<-|I].
  - unfold is in Q. rewrite G, N.eqb_refl in Q. discriminate.
  - apply (IH eq_refl). exists b. auto.
Qed.

(** * Balanced text *)
Fixpoint grab (o c : char) (d : nat) (t : text) : option (text * text) :=
  match t with
  | [] => None
  | a :: t' =>
      let put (d : nat) := match grab o c d t' with Some (i, r) => Some (a :: i, r) | None => None end in
      if is c a then match d with 0 => Some ([], t') | S d' => put d' end
      else if is o a then put (S d) else put d
  end.
Lemma count_cons : forall c a t, count c (a :: t) = (if is c a then 1 else 0) + count c t.
Proof. intros c a t. unfold count. cbn [filter]. unfold is. destruct (fst a =? c)%N; reflexivity. Qed.

Lemma grab_sound : forall o c t d inner rest, o <> c -> grab o c d t = Some (inner, rest) ->
  (forall p q, inner = p ++ q -> count c p <= d + count o p) /\ d + count o inner = count c inner /\
  exists x, fst x = c /\ t = inner ++ x :: rest.
Proof.
  intros o c t. induction t as [|a t IH]; intros d inner rest OC E; [discriminate|]. cbn [grab] in E.
  assert (P : forall d', match grab o c d' t with Some (i, r) => Some (a :: i, r) | None => None end = Some (inner, rest) ->
    (is c a = true /\ d = S d' \/ is c a = false /\ is o a = true /\ d' = S d \/ is c a = false /\ is o a = false /\ d' = d) ->
    (forall p q, inner = p ++ q -> count c p <= d + count o p) /\ d + count o inner = count c inner /\ exists x, fst x = c /\ a :: t = inner ++ x :: rest).
  { intros d' Eg Hd. destruct (grab o c d' t) as [[i r]|] eqn:G; [|discriminate]. injection Eg as <- <-.
    destruct (IH d' i r OC G) as (A & B & x & X & ->).
    assert (OA : is c a = true -> is o a = false).
    { intros Q. apply N.eqb_eq in Q. apply N.eqb_neq. rewrite Q. congruence. }
    split; [|split].
    - intros p q Ep. destruct p as [|b p]; [cbn; lia|]. cbn in Ep. injection Ep as <- Ep. specialize (A p q Ep). rewrite !count_cons.
      destruct Hd as [(Q & ->)|[(Q & Q' & ->)|(Q & Q' & ->)]]; rewrite Q; try rewrite (OA Q); try rewrite Q'; lia.
    - rewrite !count_cons. destruct Hd as [(Q & ->)|[(Q & Q' & ->)|(Q & Q' & ->)]]; rewrite Q; try rewrite (OA Q); try rewrite Q'; lia.
    - exists x. split; [exact X|reflexivity]. }
  destruct (is c a) eqn:Q.
  - destruct d as [|d'].
    + injection E as <- <-. split; [intros p q Ep; destruct p; [cbn; lia|discriminate]|]. split; [reflexivity|]. exists a. split; [apply N.eqb_eq; exact Q|reflexivity].
    + apply (P d' E). auto.
  - destruct (is o a) eqn:Q'; [apply (P _ E); auto|apply (P _ E); auto].
Qed.
Lemma grab_group : forall o c t inner rest, o <> c -> grab o c 0 t = Some (inner, rest) -> group o c t inner rest.
Proof. intros o c t inner rest OC E. destruct (grab_sound _ _ _ _ _ _ OC E) as (A & B & C). split; [exact A|]. split; [exact B|exact C]. Qed.

Definition calls_function (inner : text) : bool := existsb (fun k => starts_with (lit k) (chars inner)) function_names.
Lemma calls_function_no : forall inner, calls_function inner = false -> forall k, In k function_names -> ~ begins_with k inner.
Proof.
  intros inner H k I (u & w & -> & W). assert (X : calls_function (w ++ u) = true); [|congruence].
  apply existsb_exists. exists k. split; [exact I|]. apply starts_with_iff. exists (chars u). unfold chars in *. rewrite map_app, W. reflexivity.
Qed.

(** * Expressions *)
Fixpoint expr (fuel : nat) (t : text) : bool :=
  match fuel with
  | 0 => false
  | S fuel =>
      match t with
      | [] => true
      | a :: u =>
          if is dollar a then
            match u with
            | [] => true
            | b :: v =>
                if is open_paren b then
                  match grab open_paren close_paren 0 v with
                  | Some (inner, rest) => negb (calls_function inner) && expr fuel inner && expr fuel rest
                  | None => false
                  end
                else if is close_brace b then false
                else expr fuel v
            end
          else expr fuel u
      end
  end.
Lemma expr_sound : forall fuel t, expr fuel t = true -> exists ns, reads False t ns.
Proof.
  induction fuel as [|fuel IH]; intros t E; [discriminate|]. cbn [expr] in E. destruct t as [|a u]; [exists []; constructor|].
  destruct (is dollar a) eqn:Qa.
  - apply N.eqb_eq in Qa. destruct u as [|b v]; [eexists; apply R_last; exact Qa|].
    destruct (is open_paren b) eqn:Qb.
    + apply N.eqb_eq in Qb. destruct (grab open_paren close_paren 0 v) as [[inner rest]|] eqn:G; [|discriminate].
      apply andb_prop in E as [E E3]. apply andb_prop in E as [E1 E2]. apply negb_true_iff in E1.
      destruct (IH _ E2) as [ns R], (IH _ E3) as [ns' R'].
      assert (exists a, reads_ast False inner a) as [x X]. { destruct inner; eexists; [apply RA_empty|apply RA_some; exact R]. }
      eexists. eapply R_var; [exact Qa|rewrite Qb; apply O_paren|apply grab_group; [discriminate|exact G]|apply calls_function_no; exact E1|exact X|exact R'].
    + destruct (is close_brace b) eqn:Qc; [discriminate|]. destruct (IH _ E) as [ns R].
      destruct (is dollar b) eqn:Qd; [apply N.eqb_eq in Qd; eexists; apply R_dollar; [exact Qa|exact Qd|exact R]|].
      eexists. apply R_char; [exact Qa| |exact R]. apply N.eqb_neq in Qb, Qc, Qd. intros [I|[I|[I|[]]]]; congruence.
  - destruct (IH _ E) as [ns R]. eexists. apply (R_text False [a] [Located (snd a) [fst a]] u ns); [discriminate| | |tauto|exact R].
    + intros (b & [<-|[]] & F). apply N.eqb_neq in Qa. contradiction.
    + split; [|repeat constructor; discriminate]. destruct a. reflexivity.
Qed.
Lemma expr_expression : forall fuel t, expr fuel t = true -> expression t.
Proof.
  intros fuel t E. destruct (expr_sound _ _ E) as [ns R]. destruct t; eexists; [apply RA_empty|apply RA_some; exact R].
Qed.

Definition plainb (m : text) : bool := negb (hasb colon m).
Lemma plainb_plain : forall m, plainb m = true -> plain m.
Proof. intros m E. apply plain_no_colon. apply hasb_no. apply negb_true_iff. exact E. Qed.

(** * Substitution references *)
Definition location_eq_dec : forall a b : location, {a = b} + {a <> b}.
Proof. decide equality; first [apply N.eq_dec|apply Nat.eq_dec|apply Z.eq_dec]. Defined.
Fixpoint unbrokenb (t : text) : bool :=
  match t with
  | x :: (y :: _) as u => (if location_eq_dec (snd x) Synthetic then false else if location_eq_dec (snd y) (step_location (snd x) (fst x)) then true else false) && unbrokenb u
  | _ => true
  end.
Lemma unbrokenb_sound : forall t, unbrokenb t = true -> unbroken t.
Proof.
  induction t as [|x t IH]; intros E p a b q Et; [destruct p; discriminate|]. destruct t as [|y t]; [destruct p as [|? [|? ?]]; discriminate|].
  cbn [unbrokenb] in E. apply andb_prop in E as [E1 E2]. destruct p as [|z p].
  - cbn in Et. injection Et as <- <- _. destruct (location_eq_dec (snd x) Synthetic); [discriminate|].
    destruct (location_eq_dec (snd y) (step_location (snd x) (fst x))); [|discriminate]. split; assumption.
  - cbn in Et. injection Et as <- Et. exact (IH E2 p a b q Et).
Qed.

(** Texts in the pieces in which they were written. *)
Definition followsb (x y : placed) : bool :=
  if location_eq_dec (snd x) Synthetic then false else if location_eq_dec (snd y) (step_location (snd x) (fst x)) then true else false.
Lemma followsb_iff : forall x y, if followsb x y then AstParseSpec.follows x y else ~ AstParseSpec.follows x y.
Proof.
  intros x y. unfold followsb, AstParseSpec.follows. destruct (location_eq_dec (snd x) Synthetic); [tauto|].
  destruct (location_eq_dec (snd y) (step_location (snd x) (fst x))); tauto.
Qed.
Fixpoint runs_of (t : text) : list text :=
  match t with
  | [] => []
  | x :: u => match runs_of u with
              | (y :: q) :: qs => if followsb x y then (x :: y :: q) :: qs else [x] :: (y :: q) :: qs
              | _ => [[x]]
              end
  end.
Lemma parted_cons : forall (q : text) qs, Forall (fun q => q <> []) qs -> parted (fun q => q) qs ->
  (forall u x y v, q = u ++ [x] -> concat qs = y :: v -> ~ AstParseSpec.follows x y) -> parted (fun q => q) (q :: qs).
Proof.
  intros q qs F P H p r u x y v E1 E2 E3. rewrite map_id in *. destruct p as [|z p]; [destruct u; discriminate|]. injection E1 as -> E1. subst qs.
  cbn [concat] in E2. destruct p as [|z' p]; [cbn in E2; rewrite app_nil_r in E2; exact (H u x y v E2 E3)|].
  apply Forall_app in F as (F & _). inversion F as [|? ? Nz F']; subst.
  assert (Nc : concat (z' :: p) <> []) by (cbn; destruct z'; [contradiction|discriminate]).
  destruct (exists_last Nc) as (u' & x' & E). rewrite E, app_assoc in E2. apply app_inj_tail in E2 as (_ & ->).
  apply (P (z' :: p) r u' x y v); [reflexivity|rewrite map_id; exact E|rewrite map_id; exact E3].
Qed.
Lemma runs_of_sound : forall t, t = concat (runs_of t) /\ Forall (fun q => q <> [] /\ unbroken q) (runs_of t) /\ parted (fun q => q) (runs_of t).
Proof.
  induction t as [|x t (IE & IF & IP)]; [split; [reflexivity|]; split; [constructor|]; intros [|] ? [|] * E1 E2; discriminate|].
  cbn [runs_of].
  assert (One : forall z : placed, unbroken [z]) by (intros z [|a [|b p]] c d q E; discriminate).
  destruct (runs_of t) as [|[|y q] qs] eqn:R.
  - cbn in IE. subst t. split; [reflexivity|]. split; [constructor; [split; [discriminate|apply One]|constructor]|].
    apply parted_cons; [constructor|exact IP|intros; discriminate].
  - inversion IF as [|? ? (N & _) _]. contradiction.
  - inversion IF as [|? ? (_ & U) F']; subst. pose proof (followsb_iff x y) as H. destruct (followsb x y).
    + split; [cbn; f_equal; exact IE|]. split.
      * constructor; [|exact F']. split; [discriminate|]. intros [|a p] c d r E.
        { injection E as <- <- _. exact H. }
        { injection E as _ E. exact (U p c d r E). }
      * apply parted_cons; [eapply Forall_impl; [|exact F']; intros ? (A & _); exact A| |].
        { intros p r u a b v E1 E2 E3. rewrite map_id in *. apply (IP ((y :: q) :: p) r ((y :: q) ++ u) a b v); [cbn; now rewrite E1| |rewrite map_id; exact E3].
          cbn [List.map concat]. rewrite map_id, E2, app_assoc. reflexivity. }
        { intros u a b v E1 E2. destruct u as [|w u]; [discriminate|]. injection E1 as _ E1.
          apply (IP [y :: q] qs u a b v); [reflexivity|cbn; rewrite app_nil_r; exact E1|rewrite map_id; exact E2]. }
    + split; [cbn; f_equal; exact IE|]. split; [constructor; [split; [discriminate|apply One]|exact IF]|].
      apply parted_cons; [eapply Forall_impl; [|exact IF]; intros ? (A & _); exact A|exact IP|].
      intros u a b v E1 E2. destruct u as [|w [|? ?]]; try discriminate. injection E1 as <-. injection E2 as <- _. exact H.
Qed.
Fixpoint softb (t : text) : bool :=
  match t with
  | x :: (y :: _) as u => (if location_eq_dec (snd x) Synthetic then if location_eq_dec (snd y) Synthetic then blank (fst y) else true else true) && softb u
  | _ => true
  end.
Lemma softb_sound : forall t, softb t = true -> forall p x y q, t = p ++ x :: y :: q -> snd x = Synthetic -> snd y = Synthetic -> blank (fst y) = true.
Proof.
  induction t as [|x t IH]; intros E p a b q Et; [destruct p; discriminate|]. destruct t as [|y t]; [destruct p as [|? [|? ?]]; discriminate|].
  cbn [softb] in E. apply andb_prop in E as [E1 E2]. destruct p as [|z p].
  - cbn in Et. injection Et as <- <- _. intros A B. rewrite A in E1. destruct (location_eq_dec Synthetic Synthetic); [|contradiction]. rewrite B in E1.
    destruct (location_eq_dec Synthetic Synthetic); [exact E1|contradiction].
  - cbn in Et. injection Et as <- Et. exact (IH E2 p a b q Et).
Qed.
Definition cut_up (t : text) : option (list text) :=
  if softb t then Some (runs_of t) else None.
Lemma cut_up_sound : forall t qs, cut_up t = Some qs -> written_in t qs.
Proof.
  intros t qs E. unfold cut_up in E. destruct (softb t) eqn:B; [|discriminate]. injection E as <-. destruct (runs_of_sound t) as (A & F & P).
  split; [exact A|]. split; [exact F|]. split; [exact P|]. exact (softb_sound t B).
Qed.

(** One reference, and the text after it. *)
Definition reference_of (t : text) : option (text * text) :=
  match t with
  | [] => None
  | [x] => Some ([x], [])
  | x :: b :: u =>
      if is open_paren b then
        match grab open_paren close_paren 0 u with
        | Some (_, rest) => let n := List.length t - List.length rest in Some (firstn n t, rest)
        | None => None
        end
      else if is close_brace b then None else Some ([x; b], u)
  end.
Lemma reference_of_sound : forall x u r rest, fst x = dollar -> reference_of (x :: u) = Some (r, rest) -> x :: u = r ++ rest /\ reference_before r rest.
Proof.
  intros x u r rest X E. unfold reference_of in E. destruct u as [|b u]; [injection E as <- <-; split; [reflexivity|apply RB_last; exact X]|].
  destruct (is open_paren b) eqn:B.
  - apply N.eqb_eq in B. destruct (grab open_paren close_paren 0 u) as [[inner rest']|] eqn:G; [|discriminate].
    apply grab_group in G as (O & A & c & C & ->); [|discriminate]. cbv zeta in E.
    replace (List.length (x :: b :: inner ++ c :: rest') - List.length rest') with (List.length (x :: b :: inner ++ [c])) in E by (cbn [List.length]; rewrite !app_length; cbn [List.length]; lia).
    assert (Q : x :: b :: inner ++ c :: rest' = (x :: b :: inner ++ [c]) ++ rest') by (cbn; rewrite <- app_assoc; reflexivity).
    assert (Fn : firstn (List.length (x :: b :: inner ++ [c])) (x :: b :: inner ++ c :: rest') = x :: b :: inner ++ [c]).
    { rewrite Q, firstn_app, firstn_all, Nat.sub_diag, firstn_O. apply app_nil_r. }
    rewrite Fn in E. injection E as <- <-. split; [exact Q|].
    eapply RB_group with (inner := inner); [exact X|exact B|]. split; [exact O|]. split; [exact A|]. exists c. auto.
  - destruct (is close_brace b) eqn:B2; [discriminate|]. injection E as <- <-. split; [reflexivity|]. apply RB_char; [exact X|].
    apply N.eqb_neq in B, B2. intros [I|[I|[]]]; congruence.
Qed.

Fixpoint not_dollar (t : text) : text * text :=
  match t with
  | [] => ([], [])
  | x :: u => if is dollar x then ([], t) else let '(a, b) := not_dollar u in (x :: a, b)
  end.
Lemma not_dollar_sound : forall t a b, not_dollar t = (a, b) -> t = a ++ b /\ ~ has fst dollar a /\ begins_dollar b.
Proof.
  induction t as [|x t IH]; intros a b E; cbn in E.
  - injection E as <- <-. split; [reflexivity|]. split; [intros (? & [] & _)|intros c v Q; discriminate].
  - destruct (is dollar x) eqn:X.
    + injection E as <- <-. apply N.eqb_eq in X. split; [reflexivity|]. split; [intros (? & [] & _)|]. intros c v [= <- _]. exact X.
    + destruct (not_dollar t) as [a' b'] eqn:Q. injection E as <- <-. destruct (IH _ _ eq_refl) as (-> & H & B). apply N.eqb_neq in X.
      split; [reflexivity|]. split; [|exact B]. intros (c & [<-|I] & Ec); [contradiction|]. apply H. exists c. auto.
Qed.

Definition split_subst (t : text) : option (text * text * text) :=
  match cut colon t with
  | Some (n, _, u) => if hasb colon u then None else
      match cut 61%N u with Some (k, _, r) => if hasb 61%N r then None else Some (n, k, r) | None => None end
  | None => None
  end.
Lemma split_subst_sound : forall t n k r, split_subst t = Some (n, k, r) -> is_subst t n k r.
Proof.
  intros t n k r E. unfold split_subst in E. destruct (cut colon t) as [[[n' c] u]|] eqn:K1; [|discriminate].
  destruct (hasb colon u) eqn:H1; [discriminate|]. destruct (cut 61%N u) as [[[k' q] r']|] eqn:K2; [|discriminate].
  destruct (hasb 61%N r') eqn:H2; [discriminate|]. injection E as <- <- <-.
  apply cut_some in K1 as (-> & _ & C). apply cut_some in K2 as (-> & _ & Q). exists c, q. split; [reflexivity|].
  split; [exact C|]. split; [exact Q|]. split; apply hasb_no; assumption.
Qed.

Section Stems.
Context {A : Type} (ch : A -> char).
Fixpoint first_at (q : str) (t : list A) : option nat :=
  if starts_with q (List.map ch t) then Some 0 else match t with [] => None | _ :: u => option_map Datatypes.S (first_at q u) end.
Lemma first_at_some : forall q t i, first_at q t = Some i ->
  (exists u, List.map ch t = List.map ch (firstn i t) ++ q ++ u) /\ i <= List.length t /\ forall p v, List.map ch t = p ++ q ++ v -> i <= List.length p.
Proof.
  intros q. induction t as [|a t IH]; intros i E; cbn [first_at] in E.
  - destruct (starts_with q (List.map ch [])) eqn:Q; [|discriminate]. injection E as <-. apply starts_with_iff in Q as (u & Q).
    split; [exists u; exact Q|]. split; [apply le_n|]. intros; lia.
  - destruct (starts_with q (List.map ch (a :: t))) eqn:Q.
    + injection E as <-. apply starts_with_iff in Q as (u & Q). split; [exists u; exact Q|]. split; [cbn; lia|]. intros; lia.
    + destruct (first_at q t) as [j|]; [|discriminate]. injection E as <-. destruct (IH j eq_refl) as ((u & Eu) & L & M).
      split; [exists u; cbn [firstn List.map app]; f_equal; exact Eu|]. split; [cbn; lia|].
      intros p v Ep. destruct p as [|b p].
      * exfalso. assert (X : starts_with q (List.map ch (a :: t)) = true) by (apply starts_with_iff; exists v; exact Ep). congruence.
      * cbn in Ep. injection Ep as _ Ep. specialize (M p v Ep). cbn. lia.
Qed.
Lemma first_at_none : forall q t, first_at q t = None -> forall p v, List.map ch t <> p ++ q ++ v.
Proof.
  intros q. induction t as [|a t IH]; intros E p v Ep; cbn [first_at] in E.
  - destruct (starts_with q (List.map ch [])) eqn:Q; [discriminate|]. destruct p; [|discriminate].
    assert (X : starts_with q (List.map ch []) = true) by (apply starts_with_iff; exists v; exact Ep). congruence.
  - destruct (starts_with q (List.map ch (a :: t))) eqn:Q; [discriminate|]. destruct (first_at q t) eqn:F; [discriminate|]. destruct p as [|b p].
    + assert (X : starts_with q (List.map ch (a :: t)) = true) by (apply starts_with_iff; exists v; exact Ep). congruence.
    + cbn in Ep. injection Ep as _ Ep. exact (IH eq_refl p v Ep).
Qed.

(** What the word has before, at and after the stem. *)
Definition stem_of (pk qk : str) (w : list A) : option (list A * list A * list A) :=
  if starts_with pk (List.map ch w) then
    let u := skipn (List.length pk) w in
    match first_at qk u with
    | Some i => if List.length u =? i + List.length qk then Some (firstn (List.length pk) w, firstn i u, skipn i u) else None
    | None => None
    end
  else None.
Lemma stem_of_some : forall pk qk w a stem z, stem_of pk qk w = Some (a, stem, z) ->
  w = a ++ stem ++ z /\ List.map ch a = pk /\ List.map ch z = qk /\ matches ch pk qk w stem.
Proof.
  intros pk qk w a stem z E. unfold stem_of in E. destruct (starts_with pk (List.map ch w)) eqn:Q; [|discriminate]. apply starts_with_iff in Q as (x & Q).
  set (u := skipn (List.length pk) w) in *. destruct (first_at qk u) as [i|] eqn:F; [|discriminate].
  destruct (List.length u =? i + List.length qk) eqn:L; [|discriminate]. injection E as <- <- <-. apply Nat.eqb_eq in L.
  destruct (first_at_some _ _ _ F) as ((v & Ev) & Li & M).
  assert (W : w = firstn (List.length pk) w ++ firstn i u ++ skipn i u) by (rewrite firstn_skipn; symmetry; apply firstn_skipn).
  assert (Pa : List.map ch (firstn (List.length pk) w) = pk).
  { rewrite <- firstn_map, Q, firstn_app, firstn_all, Nat.sub_diag. cbn. apply app_nil_r. }
  assert (Pz : List.map ch (skipn i u) = qk).
  { assert (Y : List.map ch (firstn i u) ++ List.map ch (skipn i u) = List.map ch (firstn i u) ++ qk ++ v).
    { rewrite <- Ev, <- map_app, firstn_skipn. reflexivity. }
    apply app_inv_head in Y. rewrite Y.
    assert (Z : List.length (List.map ch (skipn i u)) = List.length qk + List.length v) by (rewrite Y; apply app_length).
    rewrite map_length, skipn_length in Z. destruct v; [apply app_nil_r|cbn in Z; lia]. }
  split; [exact W|]. split; [exact Pa|]. split; [exact Pz|].
  exists (firstn (List.length pk) w), (skipn i u). split; [exact W|]. split; [exact Pa|]. split; [exact Pz|].
  intros p q Ep. rewrite firstn_length, Nat.min_l by exact Li. rewrite firstn_skipn in Ep. exact (M p q Ep).
Qed.
Lemma stem_of_none : forall pk qk w, stem_of pk qk w = None -> forall stem, ~ matches ch pk qk w stem.
Proof.
  intros pk qk w E stem (a & z & -> & Ha & Z & M). unfold stem_of in E.
  replace (starts_with pk (List.map ch (a ++ stem ++ z))) with true in E
    by (symmetry; apply starts_with_iff; exists (List.map ch (stem ++ z)); rewrite map_app, Ha; reflexivity).
  assert (La : List.length pk = List.length a) by (rewrite <- Ha; apply map_length).
  rewrite La, skipn_app, skipn_all, Nat.sub_diag in E. cbn [app skipn] in E.
  destruct (first_at qk (stem ++ z)) as [i|] eqn:F.
  - destruct (first_at_some _ _ _ F) as ((v & Ev) & Li & Mi). specialize (M _ _ Ev).
    specialize (Mi (List.map ch stem) []). rewrite map_length in M, Mi. rewrite firstn_length, Nat.min_l in M by exact Li.
    assert (i = List.length stem) as ->.
    { apply Nat.le_antisymm; [|exact M]. apply Mi. rewrite app_nil_r, map_app, Z. reflexivity. }
    replace (List.length (stem ++ z) =? List.length stem + List.length qk) with true in E; [discriminate|].
    symmetry. apply Nat.eqb_eq. rewrite app_length, <- Z, map_length. reflexivity.
  - apply (first_at_none _ _ F (List.map ch stem) []). rewrite app_nil_r, map_app, Z. reflexivity.
Qed.

Definition pattern_of (key repl : list A) : str * str * list A * list A :=
  match unquote ch percent [] key with
  | (o, Ended pend) => ([], List.map ch (o ++ pend), [], repl)
  | (o, Stopped c rest) =>
      match unquote ch percent [] repl with
      | (ro, Stopped rc rrest) => (List.map ch o, List.map ch rest, ro, rrest)
      | (ro, Ended pend) => (List.map ch o, List.map ch rest, [], ro ++ pend)
      end
  end.
Lemma pattern_of_sound : forall key repl pk qk pr qr, pattern_of key repl = (pk, qk, pr, qr) -> pattern ch key repl pk qk pr qr.
Proof.
  intros key repl pk qk pr qr E. unfold pattern_of in E. destruct (unquote ch percent [] key) as [o [c rest|pend]] eqn:U1.
  - destruct (unquote ch percent [] repl) as [ro [rc rrest|pend]] eqn:U2; injection E as <- <- <- <-.
    + exact (P_stem ch key repl o c rest ro rc rrest U1 U2).
    + exact (P_no_stem ch key repl o c rest ro pend U1 U2).
  - injection E as <- <- <- <-. apply P_suffix. exact U1.
Qed.
End Stems.

Definition substitute {A} (ch : A -> char) (sp : A) (key repl : list A) (value : list (list A)) : list A :=
  let '(pk, qk, pr, qr) := pattern_of ch key repl in
  join sp (List.map (fun w => match stem_of (tch ch) pk qk w with Some (_, stem, z) => pr ++ EvalSpec.kept stem z ++ qr | None => List.map snd w end)
    (subst_words (tch ch) (in_pieces value))).
Lemma substitute_sound : forall {A} (ch : A -> char) sp key repl value, cut_substituted ch sp key repl value (substitute ch sp key repl value).
Proof.
  intros A ch sp key repl value. unfold substitute. destruct (pattern_of ch key repl) as [[[pk qk] pr] qr] eqn:P.
  exists pk, qk, pr, qr. eexists. split; [exact (pattern_of_sound _ _ _ _ _ _ _ P)|]. split; [|reflexivity].
  induction (subst_words (tch ch) (in_pieces value)) as [|w ws IH]; constructor; [|exact IH].
  destruct (stem_of (tch ch) pk qk w) as [[[a stem] z]|] eqn:St; [|apply CR_keep, stem_of_none, St].
  apply stem_of_some in St as (E & Ha & Hz & M). rewrite E in M |- *. apply CR_match; assumption.
Qed.

Definition opt2 {A B C} (x : option A) (y : option B) (f : A -> B -> C) : option C :=
  match x, y with Some a, Some b => Some (f a b) | _, _ => None end.

Fixpoint value_with (run : text -> option text) (v : value) : option text :=
  match v with
  | Deferred _ t => run t
  | Fixed _ ps _ => Some (concat ps)
  | Appended v sp v' => opt2 (value_with run v) (value_with run v') (fun m m' => m ++ (if sp : bool then [made c_space] else []) ++ m')
  end.
Fixpoint pieces_with (run : text -> option text) (n : nat) (t : text) : option (list text) :=
  match n, t with
  | _, [] => Some []
  | 0, _ => None
  | S n, x :: _ =>
      if is dollar x then
        match reference_of t with
        | Some (r, rest) => opt2 (run r) (pieces_with run n rest) cons
        | None => None
        end
      else let '(a, rest) := not_dollar t in opt2 (cut_up a) (pieces_with run n rest) (@app text)
  end.
Fixpoint value_pieces (run : text -> option text) (v : value) : option (list text) :=
  match v with
  | Deferred _ t => pieces_with run (List.length t) t
  | Fixed _ ps _ => Some ps
  | Appended v sp v' => opt2 (value_pieces run v) (value_pieces run v') (fun m m' => m ++ (if sp : bool then [[made c_space]] else []) ++ m')
  end.
Fixpoint expand (fuel : nat) (D : defs) (t : text) : option text :=
  match fuel with
  | 0 => None
  | S fuel =>
      let variable (x : str) := match D x with None => Some [] | Some v => value_with (expand fuel D) v end in
      match t with
      | [] => Some []
      | a :: u =>
          if is dollar a then
            match u with
            | [] => Some [a]
            | b :: v =>
                if is dollar b then option_map (cons b) (expand fuel D v)
                else if is open_paren b then
                  match grab open_paren close_paren 0 v with
                  | Some (inner, rest) =>
                      if calls_function inner then None else
                      match expand fuel D inner with
                      | Some nm =>
                          if plainb nm then opt2 (variable (chars nm)) (expand fuel D rest) (@app placed)
                          else match split_subst inner with
                          | Some (n, k, r) =>
                              if negb (hasb dollar inner) && unbrokenb inner then
                                match D (chars n) with
                                | None => expand fuel D rest
                                | Some v => opt2 (option_map (substitute fst (made c_space) k r) (value_pieces (expand fuel D) v)) (expand fuel D rest) (@app placed)
                                end
                              else None
                          | None => None
                          end
                      | None => None
                      end
                  | None => None
                  end
                else if is close_brace b then None
                else opt2 (variable [fst b]) (expand fuel D v) (@app placed)
            end
          else option_map (cons a) (expand fuel D u)
      end
  end.
Definition expand_pieces (fuel : nat) (D : defs) (t : text) : option (list text) := pieces_with (expand fuel D) (List.length t) t.

Lemma opt2_inv : forall {A B C} (x : option A) (y : option B) (f : A -> B -> C) z, opt2 x y f = Some z ->
  exists a b, x = Some a /\ y = Some b /\ z = f a b.
Proof. intros A B C [a|] [b|] f z E; try discriminate. injection E as <-. eauto. Qed.

Lemma value_with_sound : forall D run, (forall t m, run t = Some m -> stands_for D t m) -> forall v m, value_with run v = Some m -> value_is D v m.
Proof.
  intros D run IH. induction v as [k u|f n|v1 IH1 sp v2 IH2]; intros r Er; cbn in Er.
  - apply VA_deferred. apply IH. exact Er.
  - injection Er as <-. apply VA_fixed.
  - apply opt2_inv in Er as (m1 & m2 & E1 & E2 & ->). apply VA_appended; [apply IH1; exact E1|apply IH2; exact E2].
Qed.
Lemma pieces_with_sound : forall D run, (forall t m, run t = Some m -> stands_for D t m) -> forall n t ps, pieces_with run n t = Some ps -> text_in D t ps.
Proof.
  intros D run IH. induction n as [|n IHn]; intros [|x t] ps E; cbn [pieces_with] in E; try discriminate; try (injection E as <-; apply TI_nil).
  destruct (is dollar x) eqn:X.
  - apply N.eqb_eq in X. destruct (reference_of (x :: t)) as [[r rest]|] eqn:R; [|discriminate]. apply opt2_inv in E as (m & ps' & E1 & E2 & ->).
    destruct (reference_of_sound _ _ _ _ X R) as (-> & B). apply TI_ref; [exact B|apply IH; exact E1|apply IHn; exact E2].
  - destruct (not_dollar (x :: t)) as [a rest] eqn:Nd. apply opt2_inv in E as (qs & ps' & E1 & E2 & ->).
    assert (Na : a <> []) by (cbn [not_dollar] in Nd; rewrite X in Nd; destruct (not_dollar t); injection Nd as <- _; discriminate).
    destruct (not_dollar_sound _ _ _ Nd) as (-> & Hd & B). apply TI_text; [exact Na|exact Hd|exact B|apply cut_up_sound; exact E1|apply IHn; exact E2].
Qed.
Lemma value_pieces_sound : forall D run, (forall t m, run t = Some m -> stands_for D t m) -> forall v ps, value_pieces run v = Some ps -> value_in D v ps.
Proof.
  intros D run IH. induction v as [k u|f n|v1 IH1 sp v2 IH2]; intros r Er; cbn [value_pieces] in Er.
  - apply VN_deferred. eapply pieces_with_sound; [exact IH|exact Er].
  - injection Er as <-. apply VN_fixed.
  - apply opt2_inv in Er as (m1 & m2 & E1 & E2 & ->). apply VN_appended; [apply IH1; exact E1|apply IH2; exact E2].
Qed.
Lemma expand_sound : forall D fuel t m, expand fuel D t = Some m -> stands_for D t m.
Proof.
  intros D. induction fuel as [|fuel IH]; intros t m E; [discriminate|]. cbn [expand] in E.
  set (value := value_with (expand fuel D)) in *. set (pieces := value_pieces (expand fuel D)) in *.
  assert (V : forall v m, value v = Some m -> value_is D v m).
  { apply value_with_sound. exact IH. }
  assert (W : forall v ps, pieces v = Some ps -> value_in D v ps).
  { apply value_pieces_sound. exact IH. }
  assert (X : forall x m, match D x with None => Some [] | Some v => value v end = Some m -> variable_is D x m).
  { intros x r Er. destruct (D x) as [v|] eqn:Dx; [eapply VI_some; eauto|injection Er as <-; apply VI_none; exact Dx]. }
  clearbody value pieces.
  destruct t as [|a u]; [injection E as <-; constructor|].
  destruct (is dollar a) eqn:Qa.
  - apply N.eqb_eq in Qa. destruct u as [|b v]; [injection E as <-; apply SF_last; exact Qa|].
    destruct (is dollar b) eqn:Qd.
    { apply N.eqb_eq in Qd. destruct (expand fuel D v) as [r|] eqn:Er; [|discriminate]. injection E as <-. apply SF_dollar; auto. }
    destruct (is open_paren b) eqn:Qb.
    { apply N.eqb_eq in Qb. destruct (grab open_paren close_paren 0 v) as [[inner rest]|] eqn:G; [|discriminate].
      destruct (calls_function inner) eqn:CF; [discriminate|]. destruct (expand fuel D inner) as [nm|] eqn:En; [|discriminate].
      destruct (plainb nm) eqn:P; [|clear nm En P].
      2:{ destruct (split_subst inner) as [[[n k] r]|] eqn:SP; [|discriminate].
          destruct (negb (hasb dollar inner) && unbrokenb inner) eqn:B; [|discriminate].
          apply andb_prop in B as [B1 B2]. apply negb_true_iff in B1. destruct (D (chars n)) as [v0|] eqn:Dn.
          - apply opt2_inv in E as (m1 & m2 & E1 & E2 & ->). destruct (pieces v0) as [ps|] eqn:Pv; [|discriminate]. injection E1 as <-.
            eapply (SF_subst D a b v inner rest n k r v0 ps); [exact Qa|exact Qb|apply grab_group; [discriminate|exact G]|apply calls_function_no; exact CF|
              apply hasb_no; exact B1|apply unbrokenb_sound; exact B2|apply split_subst_sound; exact SP|exact Dn|apply W; exact Pv|apply substitute_sound|apply IH; exact E2].
          - eapply (SF_subst_none D a b v inner rest n k r); [exact Qa|exact Qb|apply grab_group; [discriminate|exact G]|apply calls_function_no; exact CF|
              apply hasb_no; exact B1|apply unbrokenb_sound; exact B2|apply split_subst_sound; exact SP|exact Dn|apply IH; exact E]. }
      apply opt2_inv in E as (m1 & m2 & E1 & E2 & ->).
      eapply SF_var; [exact Qa|exact Qb|apply grab_group; [discriminate|exact G]|apply calls_function_no; exact CF|apply IH; exact En|
        apply plainb_plain; exact P|apply X; exact E1|apply IH; exact E2]. }
    destruct (is close_brace b) eqn:Qc; [discriminate|].
    apply opt2_inv in E as (m1 & m2 & E1 & E2 & ->). apply SF_char; [exact Qa| |apply X; exact E1|apply IH; exact E2].
    apply N.eqb_neq in Qb, Qc, Qd. intros [I|[I|[I|[]]]]; congruence.
  - destruct (expand fuel D u) as [r|] eqn:Er; [|discriminate]. injection E as <-. apply SF_plain; [apply N.eqb_neq; exact Qa|apply IH; exact Er].
Qed.
Lemma expand_pieces_sound : forall fuel D t ps, expand_pieces fuel D t = Some ps -> text_in D t ps.
Proof. intros fuel D t ps E. eapply pieces_with_sound; [|exact E]. apply expand_sound. Qed.

(** * Lines *)
Fixpoint logical (fuel : nat) (t : text) : option (list text * text * text) :=
  match fuel with
  | 0 => None
  | S fuel =>
      match cut c_nl t with
      | None => Some (if continued fst t then ([t], [], []) else ([], t, []))
      | Some (l, n, r) =>
          if continued fst l then
            match logical fuel r with Some (ls, last, rest) => Some (l :: ls, last, rest) | None => None end
          else Some ([], l, r)
      end
  end.
Lemma logical_sound : forall fuel t ls last rest, logical fuel t = Some (ls, last, rest) -> logical_line fst t ls last rest.
Proof.
  induction fuel as [|fuel IH]; intros t ls last rest E; [discriminate|]. cbn in E. destruct (cut c_nl t) as [[[l n] r]|] eqn:K.
  - apply cut_some in K as (-> & N & F). destruct (continued fst l) eqn:C.
    + destruct (logical fuel r) as [[[ls' last'] rest']|] eqn:R; [|discriminate]. injection E as <- <- <-. apply LL_more; auto.
    + injection E as <- <- <-. apply LL_last; auto.
  - apply cut_none in K. destruct (continued fst t) eqn:C; injection E as <- <- <-; [apply LL_open; auto|apply LL_end; auto].
Qed.

Definition line (fuel : nat) (t : text) : option (text * text) :=
  match cut c_hash t with
  | Some (p, h, u) => Some (let l := lstrip fst p in if continued fst l then clean fst GNU l ++ [made c_space] else l, h :: u)
  | None => match logical fuel t with
            | Some (ls, last, rest) => Some (join (made c_space) (pieces fst GNU true ls last), rest)
            | None => None
            end
  end.
Lemma line_sound : forall fuel t l rest, line fuel t = Some (l, rest) -> line_text t l rest.
Proof.
  intros fuel t l rest E. unfold line in E. destruct (cut c_hash t) as [[[p h] u]|] eqn:K.
  - apply cut_some in K as (-> & N & F). injection E as <- <-. apply LT_hash; auto.
  - apply cut_none in K. destruct (logical fuel t) as [[[ls last] r]|] eqn:L; [|discriminate]. injection E as <- <-.
    apply LT_line; [exact K|]. apply (logical_sound fuel). exact L.
Qed.

Definition uncontinued (fuel : nat) (t : text) : option (text * text) :=
  match cut c_hash t with
  | Some (p, h, u) => if continued fst (lstrip fst p) then None else Some (lstrip fst p, h :: u)
  | None => match logical fuel t with
            | Some ([], last, rest) => Some (lstrip fst last, rest)
            | _ => None
            end
  end.
Lemma uncontinued_sound : forall fuel t l rest, uncontinued fuel t = Some (l, rest) -> plain_line t l rest.
Proof.
  intros fuel t l rest E. unfold uncontinued in E. destruct (cut c_hash t) as [[[p h] u]|] eqn:K.
  - apply cut_some in K as (-> & N & F). destruct (continued fst (lstrip fst p)) eqn:C; [discriminate|]. injection E as <- <-. apply PL_hash; auto.
  - apply cut_none in K. destruct (logical fuel t) as [[[ls last] r]|] eqn:L; [|discriminate]. destruct ls; [|discriminate]. injection E as <- <-.
    apply PL_line; [exact K|]. apply (logical_sound fuel). exact L.
Qed.

Definition solidb (l : text) : bool := match l with c :: _ => negb (blank (fst c)) | [] => false end.
Lemma solidb_solid : forall l, solidb l = true -> solid l.
Proof. intros [|c u] E; [discriminate|]. exists c, u. split; [reflexivity|]. apply negb_true_iff. exact E. Qed.

Definition word_of (k : string) (l : text) : option text :=
  if starts_with (lit k) (List.map ascii_lower (chars l)) then Some (skipn (List.length (lit k)) l) else None.
Lemma word_of_some : forall k l r, word_of k l = Some r -> keyword k l r.
Proof.
  intros k l r E. unfold word_of in E. destruct (starts_with _ _) eqn:Q; [|discriminate]. injection E as <-.
  apply starts_with_iff in Q as (p & E). exists (firstn (List.length (lit k)) l). split; [symmetry; apply firstn_skipn|].
  unfold chars in *. rewrite <- !firstn_map, E, firstn_app, Nat.sub_diag, firstn_O, app_nil_r. apply firstn_all.
Qed.
Lemma word_of_none : forall k l, word_of k l = None -> forall r, ~ keyword k l r.
Proof.
  intros k l E r (w & -> & W). unfold word_of in E. replace (starts_with _ _) with true in E; [discriminate|].
  symmetry. apply starts_with_iff. eexists. unfold chars in *. rewrite !map_app, W. reflexivity.
Qed.
Definition none_of (ks : list string) (l : text) : bool := forallb (fun k => match word_of k l with None => true | _ => false end) ks.
Lemma none_of_sound : forall ks l, none_of ks l = true -> begins_none ks l.
Proof.
  intros ks l E k r I. apply word_of_none. unfold none_of in E. rewrite forallb_forall in E. specialize (E k I).
  destruct (word_of k l); [discriminate|reflexivity].
Qed.

(** * Assignments *)
Definition ends_name (c : char) : bool := existsb (N.eqb c) [9; 10; 11; 12; 13; 32; 58; 61; 33; 63; 43]%N.
Lemma ends_name_iff : forall c, ends_name c = true <-> name_end c.
Proof.
  intros c. unfold ends_name, name_end. rewrite existsb_exists. split.
  - intros (x & I & E). apply N.eqb_eq in E. subst x. cbn in I |- *. tauto.
  - intros H. exists c. split; [cbn in H |- *; tauto|apply N.eqb_refl].
Qed.
Fixpoint pick (ops : list (str * assignment)) (t : text) : option (assignment * text) :=
  match ops with
  | [] => None
  | (op, k) :: ops => if starts_with op (chars t) then Some (k, skipn (List.length op) t) else pick ops t
  end.
Lemma pick_some : forall ops t k u, pick ops t = Some (k, u) -> exists op, t = op ++ u /\ In (chars op, k) ops.
Proof.
  induction ops as [|[op k'] ops IH]; intros t k u E; [discriminate|]. cbn in E. destruct (starts_with op (chars t)) eqn:Q.
  - injection E as <- <-. apply starts_with_iff in Q as (p & E). exists (firstn (List.length op) t). split; [symmetry; apply firstn_skipn|].
    left. f_equal. unfold chars in *. rewrite <- firstn_map, E, firstn_app, Nat.sub_diag, firstn_O, app_nil_r, firstn_all. reflexivity.
  - destruct (IH _ _ _ E) as (x & A & B). exists x. split; [exact A|right; exact B].
Qed.
Lemma pick_none : forall ops t, pick ops t = None -> forall op k u, In (chars op, k) ops -> t <> op ++ u.
Proof.
  induction ops as [|[o k'] ops IH]; intros t E op k u I; [destruct I|]. cbn in E. destruct (starts_with o (chars t)) eqn:Q; [discriminate|].
  destruct I as [I|I]; [|eapply IH; eauto]. injection I as -> _. intros ->. replace (starts_with (chars op) (chars (op ++ u))) with true in Q; [discriminate|].
  symmetry. apply starts_with_iff. exists (chars u). unfold chars. apply map_app.
Qed.
Definition assigning (l : text) : option (text * assignment * text) :=
  match pick operators (lstrip fst (drop_while (fun a => negb (ends_name (fst a))) l)) with
  | Some (k, post) => Some (take_while (fun a => negb (ends_name (fst a))) l, k, lstrip fst post)
  | None => None
  end.
Lemma take_drop : forall {A} (p : A -> bool) l, l = take_while p l ++ drop_while p l.
Proof. intros A p. induction l as [|a l IH]; [reflexivity|]. cbn. destruct (p a); [cbn; congruence|reflexivity]. Qed.
Lemma take_all : forall {A} (p : A -> bool) l a, In a (take_while p l) -> p a = true.
Proof. intros A p. induction l as [|b l IH]; intros a I; [destruct I|]. cbn in I. destruct (p b) eqn:Q; [|destruct I]. destruct I as [<-|I]; auto. Qed.
Lemma drop_app : forall {A} (p : A -> bool) a b, (forall x, In x a -> p x = true) -> match b with [] => True | x :: _ => p x = false end ->
  drop_while p (a ++ b) = b.
Proof.
  intros A p. induction a as [|x a IH]; intros b H N; cbn.
  - destruct b; [reflexivity|]. cbn. rewrite N. reflexivity.
  - rewrite (H x (or_introl eq_refl)). apply IH; [intros y I; apply H; now right|exact N].
Qed.
Lemma assigning_some : forall l name k v, assigning l = Some (name, k, v) -> assigns l name k v.
Proof.
  intros l name k v E. unfold assigning in E. set (p := fun a : placed => negb (ends_name (fst a))) in *.
  destruct (pick _ _) as [[k' post]|] eqn:P; [|discriminate]. injection E as <- <- <-.
  apply pick_some in P as (op & E & I). unfold lstrip in E.
  exists (take_while (fun a => blank (fst a)) (drop_while p l)), op, post. split; [|split; [|split; [|split; [exact I|reflexivity]]]].
  - rewrite <- E, <- take_drop. apply take_drop.
  - intros a Ia Q. apply take_all in Ia. apply ends_name_iff in Q. unfold p in Ia. rewrite Q in Ia. discriminate.
  - intros a Ia. exact (take_all _ _ _ Ia).
Qed.
Lemma op_first : forall op k, In (chars op, k) operators -> exists c u, op = c :: u /\ ends_name (fst c) = true /\ blank (fst c) = false.
Proof.
  intros op k I. destruct op as [|c u].
  - cbn in I. repeat (destruct I as [I|I]; [discriminate|]). destruct I.
  - exists c, u. split; [reflexivity|]. cbn in I.
    repeat (destruct I as [I|I]; [injection I as <-; auto|]). destruct I.
Qed.
Lemma assigning_none : forall l, assigning l = None -> no_assignment l.
Proof.
  intros l E name k v (bl & op & post & -> & N & B & I & ->). unfold assigning in E.
  destruct (op_first _ _ I) as (c & u & -> & Q1 & Q2).
  set (p := fun a : placed => negb (ends_name (fst a))) in *.
  assert (D : drop_while p (name ++ bl ++ (c :: u) ++ post) = bl ++ (c :: u) ++ post).
  { apply drop_app.
    - intros a Ia. unfold p. apply negb_true_iff. destruct (ends_name (fst a)) eqn:Q; [|reflexivity]. apply ends_name_iff in Q. destruct (N a Ia Q).
    - destruct bl as [|b bl]; cbn; unfold p; [rewrite Q1; reflexivity|]. specialize (B b (or_introl eq_refl)). unfold blank in B.
      apply orb_true_iff in B as [B|B]; apply N.eqb_eq in B; rewrite B; reflexivity. }
  rewrite D in E. unfold lstrip in E. rewrite (drop_app (fun a => blank (fst a)) bl) in E; [|exact B|exact Q2].
  destruct (pick _ _) as [[k' post']|] eqn:P; [discriminate|]. exact (pick_none _ _ P _ _ _ I eq_refl).
Qed.

Definition assign (fuel : nat) (D : defs) (x : str) (k : assignment) (v : text) : option value :=
  match k with
  | AsRecursive => if expr fuel v then Some (Deferred FlRecursive v) else None
  | AsConditional => if expr fuel v then Some (Deferred FlConditional v) else None
  | AsBang => if expr fuel v then Some (Deferred FlShell v) else None
  | AsSimple => match v with [] => None | _ => option_map (fun ps => Fixed v ps (looks_up D v)) (expand_pieces fuel D v) end
  | AsAppend => if expr fuel v then Some (match D x with None => Deferred FlRecursive v | Some old => Appended old true (Deferred FlRecursive v) end) else None
  end.
Lemma assign_sound : forall fuel D x k v z, assign fuel D x k v = Some z -> assigned D x k v z.
Proof.
  intros fuel D x k v z E. unfold assign in E. destruct k.
  - destruct v as [|a v]; [discriminate|]. destruct (expand_pieces fuel D (a :: v)) as [m|] eqn:Q; [|discriminate]. injection E as <-.
    apply AS_now; [discriminate|]. apply (expand_pieces_sound fuel). exact Q.
  - destruct (expr fuel v) eqn:Q; [|discriminate]. injection E as <-. apply AS_later; [cbn; tauto|cbn; tauto|apply (expr_expression fuel); exact Q].
  - destruct (expr fuel v) eqn:Q; [|discriminate]. injection E as <-. apply AS_later; [cbn; tauto|cbn; tauto|apply (expr_expression fuel); exact Q].
  - destruct (expr fuel v) eqn:Q; [|discriminate]. injection E as <-. apply AS_later; [cbn; tauto|cbn; tauto|apply (expr_expression fuel); exact Q].
  - destruct (expr fuel v) eqn:Q; [|discriminate]. apply expr_expression in Q. injection E as <-. destruct (D x) as [old|] eqn:Dx; [apply AS_more; auto|apply AS_new; auto].
Qed.

(** * Conditionals *)
(** The text up to a comma outside parentheses. *)
Fixpoint grab_comma (k : Z) (t : text) : option (text * text) :=
  match t with
  | [] => None
  | a :: t' =>
      if is comma a && (k <=? 0)%Z then Some ([], t')
      else match grab_comma (k + (if is open_paren a then 1 else 0) - (if is close_paren a then 1 else 0))%Z t' with Some (i, r) => Some (a :: i, r) | None => None end
  end.
Definition at_comma (k : Z) (t i r : text) : Prop :=
  exists x, t = i ++ x :: r /\ fst x = comma /\ (k + Z.of_nat (count open_paren i) <= Z.of_nat (count close_paren i))%Z /\
    (forall p y q, i = p ++ y :: q -> fst y = comma -> (Z.of_nat (count close_paren p) < k + Z.of_nat (count open_paren p))%Z).
Lemma grab_comma_sound : forall t k i r, grab_comma k t = Some (i, r) -> at_comma k t i r.
Proof.
  induction t as [|a t IH]; intros k i r E; [discriminate|]. cbn [grab_comma] in E. destruct (is comma a && (k <=? 0)%Z) eqn:Q.
  - injection E as <- <-. apply andb_prop in Q as [Q1 Q2]. apply N.eqb_eq in Q1. apply Z.leb_le in Q2. exists a. split; [reflexivity|]. split; [exact Q1|]. split; [cbn; lia|].
    intros p y q Ep. destruct p; discriminate.
  - destruct (grab_comma _ t) as [[i' r']|] eqn:G; [|discriminate]. injection E as <- <-. apply IH in G as (x & -> & X & C & N).
    exists x. split; [reflexivity|]. split; [exact X|]. rewrite !count_cons. unfold is in *. split; [destruct (fst a =? open_paren)%N, (fst a =? close_paren)%N; lia|].
    intros p y q Ep Y. destruct p as [|b p].
    + cbn in Ep. injection Ep as <- <-. rewrite Y, N.eqb_refl in Q. apply Z.leb_gt in Q. cbn. lia.
    + cbn in Ep. injection Ep as <- Ep. specialize (N p y q Ep Y). rewrite !count_cons. unfold is. rewrite !Nat2Z.inj_add; destruct (fst a =? open_paren)%N, (fst a =? close_paren)%N; lia.
Qed.
Lemma grab_comma_complete : forall i k t r, at_comma k t i r -> grab_comma k t = Some (i, r).
Proof.
  induction i as [|a i IH]; intros k t r (x & -> & X & C & N); cbn [app grab_comma].
  - unfold is. rewrite X, N.eqb_refl. cbn [count filter List.length] in C. replace (k <=? 0)%Z with true by (symmetry; apply Z.leb_le; cbn in C; lia). reflexivity.
  - destruct (is comma a && (k <=? 0)%Z) eqn:Q.
    + apply andb_prop in Q as [Q1 Q2]. apply N.eqb_eq in Q1. apply Z.leb_le in Q2. specialize (N [] a i eq_refl Q1). cbn in N. lia.
    + rewrite (IH _ (i ++ x :: r) r); [reflexivity|]. exists x. split; [reflexivity|]. split; [exact X|]. rewrite !count_cons in C. unfold is in *.
      split; [destruct (fst a =? open_paren)%N, (fst a =? close_paren)%N; lia|].
      intros p y q Ep Y. subst i. specialize (N (a :: p) y q eq_refl Y). rewrite !count_cons in N. unfold is in N. destruct (fst a =? open_paren)%N, (fst a =? close_paren)%N; lia.
Qed.
Lemma before_comma_at : forall t a u, before_comma t a u <-> at_comma 0 t a u.
Proof.
  intros t a u. split; intros (x & E & X & C & N); exists x; (split; [exact E|split; [exact X|split; [lia|]]]); intros p y q Ep Y; specialize (N p y q Ep Y); lia.
Qed.
Lemma comma_iff : forall t a u, grab_comma 0 t = Some (a, u) <-> before_comma t a u.
Proof. intros t a u. rewrite before_comma_at. split; [apply grab_comma_sound|apply grab_comma_complete]. Qed.
Lemma grab_complete : forall inner o c d t rest, (forall p q, inner = p ++ q -> count c p <= d + count o p) -> d + count o inner = count c inner -> o <> c ->
  (exists x, fst x = c /\ t = inner ++ x :: rest) -> grab o c d t = Some (inner, rest).
Proof.
  induction inner as [|a inner IH]; intros o c d t rest O C NE (x & X & ->); cbn [app grab].
  - cbn in C. assert (d = 0) by lia. subst d. unfold is. rewrite X, N.eqb_refl. reflexivity.
  - assert (P := O [a] inner eq_refl). rewrite !count_cons in P, C. change (count o []) with 0 in P. change (count c []) with 0 in P. unfold is in *.
    assert (R : forall d', (if (fst a =? c)%N then 1 else 0) + d' = d + (if (fst a =? o)%N then 1 else 0) -> grab o c d' (inner ++ x :: rest) = Some (inner, rest)).
    { intros d' D. apply IH; [|lia|exact NE|eauto]. intros p q Q. specialize (O (a :: p) q ltac:(rewrite Q; reflexivity)). rewrite !count_cons in O. unfold is in O. lia. }
    destruct (N.eqb_spec (fst a) c) as [E|E]; destruct (N.eqb_spec (fst a) o) as [E2|E2]; try congruence.
    + destruct d as [|d]; [lia|]. rewrite (R d) by lia. reflexivity.
    + rewrite (R (S d)) by lia. reflexivity.
    + rewrite (R d) by lia. reflexivity.
Qed.
Lemma cut_complete : forall c a q u, ~ has fst c a -> fst q = c -> cut c (a ++ q :: u) = Some (a, q, u).
Proof.
  intros c a q u N Q. destruct (cut c (a ++ q :: u)) as [[[p x] r]|] eqn:E.
  - apply cut_some in E as (E & Np & X). revert p E Np. induction a as [|y a IH]; intros p E Np.
    + destruct p as [|z p]; cbn in E; injection E as E1 E2; [subst; reflexivity|]. exfalso. apply Np. exists z. subst. split; [left; reflexivity|congruence].
    + destruct p as [|z p]; cbn in E; injection E as E1 E2.
      * exfalso. apply N. exists y. subst. split; [left; reflexivity|congruence].
      * subst z. assert (Z : Some (p, x, r) = Some (a, q, u)).
        { apply IH; [intros (w & I & W); apply N; exists w; cbn; auto|exact E2|intros (w & I & W); apply Np; exists w; cbn; auto]. }
        injection Z as -> -> ->. reflexivity.
  - apply cut_none in E. exfalso. apply E. exists q. split; [apply in_or_app; right; left; reflexivity|exact Q].
Qed.

Definition arguments (t : text) : option (text * text) :=
  match t with
  | [] => None
  | o :: t' =>
      if is open_paren o then
        match grab_comma 0 t' with
        | Some (a, u) => match grab open_paren close_paren 0 (lstrip fst u) with Some (b, _) => Some (a, b) | None => None end
        | None => None
        end
      else if is 34%N o || is 39%N o then
        match cut (fst o) t' with
        | Some (a, _, u) =>
            match lstrip fst u with
            | o' :: v => if is 34%N o' || is 39%N o' then match cut (fst o') v with Some (b, _, _) => Some (a, b) | None => None end else None
            | [] => None
            end
        | None => None
        end
      else None
  end.
Lemma quote_in : forall o, is 34%N o || is 39%N o = true -> In (fst o) [34; 39]%N.
Proof. intros o E. apply orb_true_iff in E as [E|E]; apply N.eqb_eq in E; rewrite E; cbn; tauto. Qed.
Lemma arguments_sound : forall t a b, arguments t = Some (a, b) -> two_arguments t a b.
Proof.
  intros [|o t] a b E; [discriminate|]. cbn [arguments] in E. destruct (is open_paren o) eqn:Q.
  - destruct (grab_comma 0 t) as [[a' u]|] eqn:G; [|discriminate]. destruct (grab _ _ 0 (lstrip fst u)) as [[b' v]|] eqn:G2; [|discriminate]. injection E as <- <-.
    apply TA_parens with (u := u) (v := v); [apply N.eqb_eq; exact Q|apply comma_iff; exact G|apply grab_group; [discriminate|exact G2]].
  - destruct (is 34%N o || is 39%N o) eqn:Q1; [|discriminate]. destruct (cut (fst o) t) as [[[a' q] u]|] eqn:K; [|discriminate].
    destruct (lstrip fst u) as [|o' v] eqn:L; [discriminate|]. destruct (is 34%N o' || is 39%N o') eqn:Q2; [|discriminate].
    destruct (cut (fst o') v) as [[[b' q'] v']|] eqn:K2; [|discriminate]. injection E as <- <-.
    apply cut_some in K as (-> & N1 & F1). apply cut_some in K2 as (-> & N2 & F2).
    eapply TA_quotes; [apply quote_in; exact Q1|exact N1|exact F1|apply quote_in; exact Q2|exact N2|exact F2|exact L].
Qed.

Lemma in_quote : forall o : placed, In (fst o) [34; 39]%N -> is open_paren o = false /\ is 34%N o || is 39%N o = true.
Proof. intros o [E|[E|[]]]; unfold is; rewrite <- E; auto. Qed.
Lemma arguments_complete : forall t a b, two_arguments t a b -> arguments t = Some (a, b).
Proof.
  intros t a b T. destruct T as [o t a u b v O C (Op & Cl & x & X & G)|o a q u o' b q' v O N Q O' N' Q' U]; cbn [arguments].
  - unfold is at 1. rewrite O, N.eqb_refl. apply comma_iff in C. rewrite C.
    rewrite (grab_complete b open_paren close_paren 0 _ v Op Cl ltac:(discriminate) (ex_intro _ x (conj X G))). reflexivity.
  - destruct (in_quote o O) as [-> ->]. rewrite (cut_complete _ _ _ _ N Q), U. destruct (in_quote o' O') as [_ ->]. rewrite (cut_complete _ _ _ _ N' Q'). reflexivity.
Qed.
Definition first_of (t : text) : option text :=
  match t with
  | [] => None
  | o :: t' =>
      if is open_paren o then match grab_comma 0 t' with Some (a, _) => Some a | None => None end
      else if is 34%N o || is 39%N o then match cut (fst o) t' with Some (a, _, _) => Some a | None => None end
      else None
  end.
Lemma first_complete : forall t a, first_argument t a -> first_of t = Some a.
Proof.
  intros t a [o t' a' u O C|o a' q u O N Q]; cbn [first_of].
  - unfold is. rewrite O, N.eqb_refl. apply comma_iff in C. rewrite C. reflexivity.
  - destruct (in_quote o O) as [-> ->]. rewrite (cut_complete _ _ _ _ N Q). reflexivity.
Qed.
Definition no_argumentsb (fuel : nat) (t : text) : bool :=
  match arguments t with
  | Some _ => false
  | None => match first_of t with Some a => expr fuel a | None => true end
  end.
Definition unconditionalb (fuel : nat) (l : text) : bool :=
  none_of ["ifdef"; "ifndef"; "else"; "endif"]%string l &&
  match word_of "ifeq" l with Some r => no_argumentsb fuel (lstrip fst r) | None => true end &&
  match word_of "ifneq" l with Some r => no_argumentsb fuel (lstrip fst r) | None => true end.
Lemma keyword_same : forall k l r r', keyword k l r -> keyword k l r' -> r' = r.
Proof.
  intros k l r r' (w & -> & W) (w' & E & W'). assert (L : List.length w = List.length w').
  { apply (f_equal (@List.length _)) in W, W'. unfold chars in *. rewrite !map_length in *. congruence. }
  clear W W'. revert w' E L. induction w as [|c w IH]; intros [|c' w'] E L; cbn in *; try discriminate; [congruence|].
  injection E as _ E. apply (IH w' E). lia.
Qed.
Lemma no_arguments_sound : forall fuel t, no_argumentsb fuel t = true -> (forall a b, ~ two_arguments t a b) /\ (forall a, first_argument t a -> expression a).
Proof.
  intros fuel t E. unfold no_argumentsb in E. destruct (arguments t) as [x|] eqn:A; [discriminate|]. split.
  - intros a b T. apply arguments_complete in T. congruence.
  - intros a F. apply first_complete in F. rewrite F in E. apply expr_expression in E. exact E.
Qed.
Lemma unconditionalb_sound : forall fuel l, unconditionalb fuel l = true -> unconditional l.
Proof.
  intros fuel l E. unfold unconditionalb in E. apply andb_prop in E as [E E3]. apply andb_prop in E as [E1 E2]. split; [apply none_of_sound; exact E1|].
  intros k rest I K. apply (no_arguments_sound fuel).
  destruct I as [<-|[<-|[]]].
  - destruct (word_of "ifeq" l) as [r|] eqn:W; [|destruct (word_of_none _ _ W _ K)]. apply word_of_some in W. rewrite (keyword_same _ _ _ _ W K). exact E2.
  - destruct (word_of "ifneq" l) as [r|] eqn:W; [|destruct (word_of_none _ _ W _ K)]. apply word_of_some in W. rewrite (keyword_same _ _ _ _ W K). exact E3.
Qed.

Definition all_blankb (t : text) : bool := forallb (fun a => blank (fst a)) t.
Lemma all_blankb_sound : forall t, all_blankb t = true -> all_blank fst t.
Proof. intros t E a I. unfold all_blankb in E. rewrite forallb_forall in E. apply E. exact I. Qed.

Definition conditional (fuel : nat) (D : defs) (l : text) : option cond_event :=
  let compare (r : text) (yes no : bool) :=
    match arguments (lstrip fst r) with
    | Some (a, b) => opt2 (expand fuel D a) (expand fuel D b) (fun m n => EvIf (if list_eq_dec N.eq_dec (trim (chars m)) (trim (chars n)) then yes else no))
    | None => None
    end in
  match word_of "ifeq" l with
  | Some r => compare r true false
  | None =>
  match word_of "ifneq" l with
  | Some r => compare r false true
  | None =>
  match word_of "else" l with
  | Some r => if all_blankb r then Some EvElse else None
  | None =>
  match word_of "endif" l with
  | Some r => if all_blankb r then Some EvEndif else None
  | None => None
  end end end end.
Lemma conditional_sound : forall fuel D l e, conditional fuel D l = Some e -> conditional_line D l e.
Proof.
  intros fuel D l e E. unfold conditional in E.
  destruct (word_of "ifeq" l) as [r|] eqn:K1.
  { apply word_of_some in K1. destruct (arguments (lstrip fst r)) as [[a b]|] eqn:A; [|discriminate]. apply arguments_sound in A.
    apply opt2_inv in E as (m & n & E1 & E2 & ->). eapply CL_ifeq; [exact K1|exact A|eapply expand_sound; exact E1|eapply expand_sound; exact E2]. }
  destruct (word_of "ifneq" l) as [r|] eqn:K2.
  { apply word_of_some in K2. destruct (arguments (lstrip fst r)) as [[a b]|] eqn:A; [|discriminate]. apply arguments_sound in A.
    apply opt2_inv in E as (m & n & E1 & E2 & ->). eapply CL_ifneq; [exact K2|exact A|eapply expand_sound; exact E1|eapply expand_sound; exact E2]. }
  destruct (word_of "else" l) as [r|] eqn:K3.
  { apply word_of_some in K3. destruct (all_blankb r) eqn:B; [|discriminate]. injection E as <-. eapply CL_else; [exact K3|apply all_blankb_sound; exact B]. }
  destruct (word_of "endif" l) as [r|] eqn:K4; [|discriminate].
  apply word_of_some in K4. destruct (all_blankb r) eqn:B; [|discriminate]. injection E as <-. eapply CL_endif; [exact K4|apply all_blankb_sound; exact B].
Qed.

(** * Rules *)
Definition freeb (cs : list char) (t : text) : bool := forallb (fun a => negb (existsb (N.eqb (fst a)) cs)) t.
Lemma freeb_free : forall cs t, freeb cs t = true -> free cs t.
Proof.
  intros cs t E a I J. unfold freeb in E. rewrite forallb_forall in E. specialize (E a I). apply negb_true_iff in E.
  assert (X : existsb (N.eqb (fst a)) cs = true); [|congruence]. apply existsb_exists. exists (fst a). split; [exact J|apply N.eqb_refl].
Qed.
Definition begins_charb (c : char) (t : text) : bool := match t with a :: _ => is c a | [] => false end.
Lemma begins_charb_no : forall c t, begins_charb c t = false -> ~ begins_char c t.
Proof. intros c t E (a & u & -> & F). cbn in E. unfold is in E. rewrite F, N.eqb_refl in E. discriminate. Qed.

Lemma firstn_exact : forall {A} (a b : list A), firstn (List.length a) (a ++ b) = a.
Proof. intros A a b. rewrite firstn_app, Nat.sub_diag, firstn_O, app_nil_r. apply firstn_all. Qed.
Lemma skipn_exact : forall {A} (a b : list A), skipn (List.length a) (a ++ b) = b.
Proof. intros A a b. rewrite skipn_app, Nat.sub_diag, skipn_all. reflexivity. Qed.

(** The word at the start of the text. *)
Fixpoint next_word (fuel : nat) (t : text) : option (text * text) :=
  match fuel with
  | 0 => None
  | S fuel =>
      match t with
      | [] => Some ([], [])
      | a :: u =>
          if is dollar a then
            match u with
            | [] => None
            | b :: v =>
                if is open_paren b then
                  match grab open_paren close_paren 0 v with
                  | Some (inner, rest) =>
                      match next_word fuel rest with
                      | Some (w, r) => Some (firstn (List.length t - List.length rest) t ++ w, r)
                      | None => None
                      end
                  | None => None
                  end
                else if is open_brace b then None
                else match next_word fuel v with Some (w, r) => Some (a :: b :: w, r) | None => None end
            end
          else if existsb (N.eqb (fst a)) [c_space; c_tab; equals; colon] then Some ([], t)
          else match next_word fuel u with Some (w, r) => Some (a :: w, r) | None => None end
      end
  end.
Lemma next_word_sound : forall fuel t w r, next_word fuel t = Some (w, r) -> t = w ++ r /\ word_text w.
Proof.
  induction fuel as [|fuel IH]; intros t w r E; [discriminate|]. cbn [next_word] in E. destruct t as [|a u]; [injection E as <- <-; split; [reflexivity|constructor]|].
  destruct (is dollar a) eqn:Qa.
  - apply N.eqb_eq in Qa. destruct u as [|b v]; [discriminate|]. destruct (is open_paren b) eqn:Qb.
    + apply N.eqb_eq in Qb. destruct (grab open_paren close_paren 0 v) as [[inner rest]|] eqn:G; [|discriminate].
      destruct (next_word fuel rest) as [[w' r']|] eqn:K; [|discriminate]. match type of E with context [firstn ?n _] => remember n as k eqn:Hk end. injection E as <- <-. destruct (IH _ _ _ K) as (-> & WT).
      apply grab_group in G; [|discriminate]. destruct G as (A & B & x & X & ->).
      match goal with |- context [firstn ?n ?l] => replace (firstn n l) with (a :: b :: inner ++ [x]) end.
      2:{ replace (a :: b :: inner ++ x :: w' ++ r') with ((a :: b :: inner ++ [x]) ++ w' ++ r') by (cbn; rewrite <- app_assoc; reflexivity).
          replace k with (List.length (a :: b :: inner ++ [x])) by (rewrite Hk; cbn [List.length]; rewrite !app_length; cbn [List.length]; rewrite !app_length; lia).
          symmetry. apply firstn_exact. }
      split; [cbn; rewrite <- !app_assoc; reflexivity|].
      cbn. eapply WT_ref; [exact Qa|exact Qb| |exact WT]. split; [exact A|]. split; [exact B|]. exists x. split; [exact X|]. rewrite <- app_assoc. reflexivity.
    + destruct (is open_brace b) eqn:Qc; [discriminate|]. destruct (next_word fuel v) as [[w' r']|] eqn:K; [|discriminate]. injection E as <- <-.
      destruct (IH _ _ _ K) as (-> & WT). split; [reflexivity|]. apply WT_char_ref; [exact Qa| |exact WT]. apply N.eqb_neq in Qb, Qc. intros [I|[I|[]]]; congruence.
  - destruct (existsb _ _) eqn:Qe.
    + injection E as <- <-. split; [reflexivity|constructor].
    + destruct (next_word fuel u) as [[w' r']|] eqn:K; [|discriminate]. injection E as <- <-. destruct (IH _ _ _ K) as (-> & WT). split; [reflexivity|].
      apply WT_char; [|exact WT]. intros I. apply N.eqb_neq in Qa. assert (X : existsb (N.eqb (fst a)) [c_space; c_tab; equals; colon] = true); [|congruence].
      apply existsb_exists. exists (fst a). split; [|apply N.eqb_refl]. cbn in I |- *. intuition congruence.
Qed.

Definition nil_or_blank (t : text) : bool := match t with [] => true | b :: _ => blank (fst b) end.
Lemma nil_or_blank_sound : forall t, nil_or_blank t = true -> match t with [] => True | b :: _ => blank (fst b) = true end.
Proof. intros [|b t] E; [exact Logic.I|exact E]. Qed.

(** What the line [t] does: the targets and the text after the colon; or nothing. *)
Inductive words_result := WTargets (ms : list text) (after : text) | WIdle.
Fixpoint line_words (fuel : nat) (D : defs) (t : text) : option words_result :=
  match fuel with
  | 0 => None
  | S fuel' =>
      match t with
      | [] => Some WIdle
      | _ =>
          match next_word fuel t with
          | None => None
          | Some (w, r) =>
              match expand fuel D w with
              | None => None
              | Some m =>
                  if begins_charb colon r then
                    if freeb [colon; semicolon; c_bslash] m then Some (WTargets [m] (tl r)) else None
                  else match w with
                  | [] => None
                  | _ =>
                      if nil_or_blank r then
                        match m with
                        | [] => Some WIdle
                        | _ =>
                            if freeb [colon; semicolon; c_bslash] m then
                              match line_words fuel' D (lstrip fst r) with
                              | Some (WTargets ms after) => match r with [] => None | _ => Some (WTargets (m :: ms) after) end
                              | x => x
                              end
                            else None
                        end
                      else None
                  end
              end
          end
      end
  end.
Lemma lstrip_tl : forall (b : placed) t, blank (fst b) = true -> lstrip fst (b :: t) = lstrip fst t.
Proof. intros b t B. unfold lstrip. cbn [drop_while]. rewrite B. reflexivity. Qed.
Lemma line_words_sound : forall fuel D t x, line_words fuel D t = Some x ->
  match x with WTargets ms after => targets_before D t ms after | WIdle => idle_words D t end.
Proof.
  induction fuel as [|fuel IH]; intros D t x E; [discriminate|]. cbn [line_words] in E.
  destruct t as [|a0 t0]; [injection E as <-; constructor|]. set (t := a0 :: t0) in *. clearbody t.
  destruct (next_word (S fuel) t) as [[w r]|] eqn:K; [|discriminate]. apply next_word_sound in K as (-> & WT).
  destruct (expand (S fuel) D w) as [m|] eqn:Em; [|discriminate]. apply expand_sound in Em.
  destruct (begins_charb colon r) eqn:Bc.
  - destruct (freeb _ m) eqn:F; [|discriminate]. injection E as <-. destruct r as [|c r]; [discriminate|]. cbn [tl].
    apply TB_last; [exact WT|exact Em|apply freeb_free; exact F|apply N.eqb_eq; exact Bc].
  - destruct w as [|c w]; [discriminate|]. destruct (nil_or_blank r) eqn:NB; [|discriminate]. pose proof (nil_or_blank_sound _ NB) as NB'.
    destruct m as [|d m]; [injection E as <-; apply IW_void; [exact WT|discriminate|exact Em|exact NB']|].
    destruct (freeb _ (d :: m)) eqn:F; [|discriminate]. apply freeb_free in F.
    destruct (line_words fuel D (lstrip fst r)) as [[ms after|]|] eqn:L; [| |discriminate].
    + specialize (IH D _ _ L). cbn in IH. destruct r as [|b r]; [discriminate|]. injection E as <-. cbn in NB'.
      apply TB_word; [exact WT|discriminate|exact Em|exact F|discriminate|exact NB'|]. rewrite (lstrip_tl b r NB') in IH. exact IH.
    + specialize (IH D _ _ L). cbn in IH. injection E as <-. eapply IW_word; [exact WT|discriminate|exact Em|exact F|discriminate|exact NB'|exact IH].
Qed.

(** The command after the first semicolon. *)
Definition command (l : text) : text * list text :=
  match cut semicolon l with Some (p, _, r) => (p, [r]) | None => (l, []) end.
Lemma command_sound : forall l head cmd, command l = (head, cmd) -> with_command l head cmd /\ ~ has fst semicolon head.
Proof.
  intros l head cmd E. unfold command in E. destruct (cut semicolon l) as [[[p x] r]|] eqn:K; injection E as <- <-.
  - apply cut_some in K as (-> & N & F). split; [exists x; auto|exact N].
  - apply cut_none in K. split; [reflexivity|exact K].
Qed.

Definition colons (after : text) : bool * text := if begins_charb colon after then (true, tl after) else (false, after).
Lemma colons_sound : forall after d deps, colons after = (d, deps) -> after_colons after d deps.
Proof.
  intros after d deps E. unfold colons in E. destruct (begins_charb colon after) eqn:B; injection E as <- <-.
  - destruct after as [|c after]; [discriminate|]. exists c. split; [reflexivity|apply N.eqb_eq; exact B].
  - split; [reflexivity|apply begins_charb_no; exact B].
Qed.

Inductive line_result := LRule (r : trule) | LIdle.
Definition rule (fuel : nat) (D : defs) (l : text) : option line_result :=
  let '(head, cmd) := command l in
  if negb (freeb [semicolon; c_bslash] head) then None
  else if begins_charb colon head then Some LIdle
  else match line_words fuel D head with
  | None => None
  | Some WIdle => Some LIdle
  | Some (WTargets ms after) =>
      let '(d, deps) := colons after in
      let rest := skipn (List.length head - List.length deps) l in
      if begins_charb colon l || begins_charb equals deps then None
      else match assigning (lstrip fst rest), expand fuel D deps with
      | None, Some m =>
          if none_of modifier_words (lstrip fst rest) && freeb [colon; semicolon; c_bslash] m && forallb (expr fuel) cmd then
            Some (LRule (TRule (concat (List.map names_in ms)) (names_in m) (List.map (fun _ => looks_up D deps) (names_in m)) cmd d))
          else None
      | _, _ => None
      end
  end.
Lemma targets_suffix : forall D t ms after, targets_before D t ms after -> exists p, t = p ++ after.
Proof.
  intros D t ms after T. induction T as [w c m after WT S N C|w b t m ms after WT Nw S N Nm B T (p & E)].
  - exists (w ++ [c]). rewrite <- app_assoc. reflexivity.
  - assert (exists q, t = q ++ lstrip fst t) as (q & Q).
    { exists (take_while (fun a => blank (fst a)) t). apply take_drop. }
    exists (w ++ b :: q ++ p). rewrite Q at 1. rewrite E. rewrite <- app_assoc. cbn. rewrite <- app_assoc. reflexivity.
Qed.
Lemma rule_sound : forall fuel D l x, rule fuel D l = Some x -> match x with LRule r => rule_line D l r | LIdle => idle_line D l end.
Proof.
  intros fuel D l x E. unfold rule in E. destruct (command l) as [head cmd] eqn:C. apply command_sound in C as (WC & _).
  destruct (freeb [semicolon; c_bslash] head) eqn:F; [|discriminate]. cbn [negb] in E. apply freeb_free in F.
  destruct (begins_charb colon head) eqn:B.
  { injection E as <-. exists head, cmd. split; [exact WC|]. split; [exact F|]. left. destruct head as [|c head]; [discriminate|].
    exists c, head. split; [reflexivity|apply N.eqb_eq; exact B]. }
  destruct (line_words fuel D head) as [[ms after|]|] eqn:L; [|apply line_words_sound in L; injection E as <-; exists head, cmd; auto|discriminate].
  apply line_words_sound in L. destruct (colons after) as [d deps] eqn:K. apply colons_sound in K.
  destruct (begins_charb colon l) eqn:B1; [discriminate|]. destruct (begins_charb equals deps) eqn:B2; [discriminate|]. cbn [orb] in E.
  destruct (targets_suffix _ _ _ _ L) as (p & Hp).
  assert (exists q, after = q ++ deps) as (q & Hq).
  { destruct d; cbn in K; [destruct K as (c & -> & _); exists [c]; reflexivity|destruct K as (-> & _); exists []; reflexivity]. }
  set (rest := skipn (List.length head - List.length deps) l) in *.
  assert (R : with_command rest deps cmd).
  { assert (S : forall z, skipn (List.length head - List.length deps) (head ++ z) = deps ++ z).
    { intros z. replace (List.length head - List.length deps) with (List.length (p ++ q)).
      - rewrite Hp, Hq. replace ((p ++ q ++ deps) ++ z) with ((p ++ q) ++ deps ++ z) by (rewrite <- !app_assoc; reflexivity). apply skipn_exact.
      - rewrite Hp, Hq, !app_length. lia. }
    unfold rest. destruct cmd as [|k [|? ?]]; cbn in WC |- *.
    - rewrite WC. specialize (S []). rewrite !app_nil_r in S. exact S.
    - destruct WC as (c & -> & Ec). exists c. split; [apply S|exact Ec].
    - contradiction. }
  destruct (assigning (lstrip fst rest)) as [?|] eqn:A; [discriminate|]. destruct (expand fuel D deps) as [m|] eqn:Em; [|discriminate].
  destruct (none_of _ _) eqn:N1; [|discriminate]. destruct (freeb _ m) eqn:F2; [|discriminate]. destruct (forallb _ cmd) eqn:X; [|discriminate]. cbn [andb] in E.
  injection E as <-. exists head, ms, after, rest, deps, m. cbn [tr_recipe tr_double tr_targets tr_deps tr_reads].
  split; [exact WC|]. split. { apply Forall_forall. intros k I. rewrite forallb_forall in X. apply (expr_expression fuel). apply X. exact I. }
  split; [exact F|]. split; [apply begins_charb_no; exact B1|]. split; [exact L|]. split; [exact K|]. split; [apply begins_charb_no; exact B2|].
  split; [exact R|]. split; [apply assigning_none; exact A|]. split; [apply none_of_sound; exact N1|]. split; [apply (expand_sound D fuel); exact Em|].
  split; [apply freeb_free; exact F2|]. repeat split; reflexivity.
Qed.

(** * Recipes *)
Fixpoint recipe (fuel : nat) (t : text) : option (text * text) :=
  match fuel with
  | 0 => None
  | S fuel =>
      match cut c_hash t with
      | Some (p, h, u) => Some (p, h :: u)
      | None =>
          match cut c_nl t with
          | None => Some (if continued fst t then (t ++ [made c_nl], []) else (t, []))
          | Some (l, n, rest) =>
              if continued fst l then
                match rest with
                | c :: u => if is c_tab c then
                              match recipe fuel u with
                              | Some ((_ :: _) as more, r) => Some (l ++ made c_nl :: more, r)
                              | _ => None
                              end
                            else Some (l ++ [made c_nl], rest)
                | [] => Some (l ++ [made c_nl], [])
                end
              else Some (l, rest)
          end
      end
  end.
Lemma recipe_sound : forall fuel t b r, recipe fuel t = Some (b, r) -> recipe_text t b r.
Proof.
  induction fuel as [|fuel IH]; intros t b r E; [discriminate|]. cbn [recipe] in E.
  destruct (cut c_hash t) as [[[p h] u]|] eqn:K; [apply cut_some in K as (-> & N & F); injection E as <- <-; apply RT_hash; auto|].
  apply cut_none in K. destruct (cut c_nl t) as [[[l n] rest]|] eqn:K2.
  - apply cut_some in K2 as (-> & N & F). destruct (continued fst l) eqn:C; [|injection E as <- <-; apply RT_line; auto].
    destruct rest as [|c u].
    { injection E as <- <-. apply RT_left; auto. intros (? & ? & H & _). discriminate. }
    destruct (is c_tab c) eqn:Q.
    + destruct (recipe fuel u) as [[more r']|] eqn:R; [|discriminate]. destruct more as [|x more]; [discriminate|]. injection E as <- <-.
      apply RT_more; auto; [apply N.eqb_eq; exact Q|discriminate].
    + injection E as <- <-. apply RT_left; auto. apply begins_charb_no. exact Q.
  - apply cut_none in K2. destruct (continued fst t) eqn:C; injection E as <- <-; [apply RT_cut|apply RT_last]; auto.
Qed.

(** * Definitions of several lines *)
Definition body (t : text) : option (text * text) :=
  match cut c_hash t with
  | Some (p, h, u) => match p with [] => None | _ => Some (p, h :: u) end
  | None => match cut c_nl t with
            | Some (l, n, rest) => Some (l ++ [n], rest)
            | None => match t with [] => None | _ => Some (t, []) end
            end
  end.
Lemma body_sound : forall t l r, body t = Some (l, r) -> body_line t l r.
Proof.
  intros t l r E. unfold body in E. destruct (cut c_hash t) as [[[p h] u]|] eqn:K.
  - apply cut_some in K as (-> & N & F). destruct p; [discriminate|]. injection E as <- <-. apply BL_hash; auto. discriminate.
  - apply cut_none in K. destruct (cut c_nl t) as [[[l' n] rest]|] eqn:K2.
    + apply cut_some in K2 as (-> & N & F). injection E as <- <-. apply BL_line; auto.
    + apply cut_none in K2. destruct t as [|a t]; [discriminate|]. injection E as <- <-. apply BL_last; auto. discriminate.
Qed.

Definition depth (n : nat) (l : text) : option nat :=
  let t := chars (lstrip fst l) in
  if starts_with (lit "define") t then Some (S n)
  else if starts_with (lit "endef") t then
    if forallb is_whitespace (skipn 5 t) then match n with S n' => Some n' | 0 => None end else None
  else Some n.
Lemma depth_sound : forall n l n', depth n l = Some n' -> deeper n l n'.
Proof.
  intros n l n' E. unfold depth in E. destruct (starts_with (lit "define") _) eqn:Q.
  - injection E as <-. apply starts_with_iff in Q as (u & Q). eapply DE_define. exact Q.
  - destruct (starts_with (lit "endef") _) eqn:Q2.
    + apply starts_with_iff in Q2 as (u & Q2). destruct (forallb is_whitespace _) eqn:W; [|discriminate]. destruct n as [|n]; [discriminate|]. injection E as <-.
      rewrite Q2 in W. apply (DE_endef n l u Q2). intros c I. rewrite forallb_forall in W. apply W. exact I.
    + injection E as <-. apply DE_other; intros u X; rewrite X in *.
      * assert (Y : starts_with (lit "define") (lit "define" ++ u) = true) by (apply starts_with_iff; eauto). congruence.
      * assert (Y : starts_with (lit "endef") (lit "endef" ++ u) = true) by (apply starts_with_iff; eauto). congruence.
Qed.

Lemma drop_same : forall (A : Type) (p : A -> bool) a b a' b', a ++ b = a' ++ b' ->
  (forall x, In x a -> p x = true) -> (forall x, In x a' -> p x = true) ->
  match b with [] => True | x :: _ => p x = false end -> match b' with [] => True | x :: _ => p x = false end -> a = a' /\ b = b'.
Proof.
  intros A p. induction a as [|x a IH]; intros b [|y a'] b' E Ha Ha' Hb Hb'; cbn in E.
  - auto.
  - subst b. rewrite (Ha' y (or_introl eq_refl)) in Hb. discriminate.
  - subst b'. rewrite (Ha x (or_introl eq_refl)) in Hb'. discriminate.
  - injection E as -> E. destruct (IH b a' b' E) as (-> & ->); auto; intros z I; [apply Ha|apply Ha']; now right.
Qed.
Lemma assigns_unique : forall l n k v n' k' v', assigns l n k v -> assigns l n' k' v' -> n' = n /\ k' = k /\ v' = v.
Proof.
  intros l n k v n' k' v' (bl & op & post & E1 & N1 & B1 & I1 & ->) (bl' & op' & post' & E2 & N2 & B2 & I2 & ->).
  destruct (op_first _ _ I1) as (c & u & -> & Q1 & Q2). destruct (op_first _ _ I2) as (c' & u' & -> & Q1' & Q2').
  assert (H : forall (nm b : text) (x : placed) (z : text), (forall a, In a nm -> ~ name_end (fst a)) -> all_blank fst b -> ends_name (fst x) = true ->
     (forall a, In a nm -> negb (ends_name (fst a)) = true) /\ match b ++ x :: z with [] => True | a :: _ => negb (ends_name (fst a)) = false end).
  { intros nm b x z N B X. split.
    - intros a I. apply negb_true_iff. destruct (ends_name (fst a)) eqn:Q; [|reflexivity]. apply ends_name_iff in Q. destruct (N a I Q).
    - destruct b as [|y b]; cbn [app]; [rewrite X; reflexivity|]. specialize (B y (or_introl eq_refl)). unfold blank in B.
      apply orb_true_iff in B as [B|B]; apply N.eqb_eq in B; rewrite B; reflexivity. }
  destruct (H n bl c (u ++ post) N1 B1 Q1) as (A1 & A2). destruct (H n' bl' c' (u' ++ post') N2 B2 Q1') as (A3 & A4).
  rewrite E1 in E2.
  destruct (drop_same placed (fun a => negb (ends_name (fst a))) n (bl ++ (c :: u) ++ post) n' (bl' ++ (c' :: u') ++ post') E2) as (-> & E3); auto.
  destruct (drop_same placed (fun a => blank (fst a)) bl ((c :: u) ++ post) bl' ((c' :: u') ++ post') E3) as (_ & E4); auto.
  split; [reflexivity|].
  assert (P : forall (o o' : text) q q' kk kk', o ++ q = o' ++ q' -> In (chars o, kk) operators -> In (chars o', kk') operators -> kk' = kk /\ q' = q).
  { intros o o' q q' kk kk' E J J'.
    assert (C : chars o ++ chars q = chars o' ++ chars q') by (unfold chars; rewrite <- !map_app, E; reflexivity).
    assert (X : chars o = chars o' /\ kk = kk').
    { cbn in J, J'. repeat match goal with H : _ \/ _ |- _ => destruct H | H : False |- _ => destruct H end;
        repeat match goal with H : (_, _) = (_, _) |- _ => injection H as ? ? end; subst;
        repeat match goal with H : _ = chars _ |- _ => rewrite <- H in * end; cbn in C; try discriminate; auto. }
    destruct X as (X & ->). split; [reflexivity|]. assert (L : List.length o = List.length o').
    { apply (f_equal (@List.length char)) in X. unfold chars in X. rewrite !map_length in X. exact X. }
    symmetry. revert E L. clear. revert o'. induction o as [|a o IH]; intros [|b o'] E L; cbn in *; try discriminate; [exact E|].
    injection E as -> E. apply (IH o' E). lia. }
  destruct (P _ _ _ _ _ _ E4 I1 I2) as (-> & ->). auto.
Qed.

Definition kind_given (k : assignment) : flavor :=
  match k with AsSimple => FlSimple | AsConditional => FlConditional | AsBang => FlShell | _ => FlRecursive end.
Definition header (fuel : nat) (D : defs) (h : text) : option (str * value) :=
  match assigning h with
  | Some (name, k, []) =>
      match expand fuel D name with
      | Some nm =>
          let x := trim (chars nm) in
          Some (x, match k, D x with AsAppend, Some old => Appended old true (Deferred FlRecursive []) | _, _ => Deferred (kind_given k) [] end)
      | None => None
      end
  | _ => Some (trim (chars h), Deferred FlRecursive [])
  end.
Lemma header_sound : forall fuel D h x v, header fuel D h = Some (x, v) -> define_header D h x v.
Proof.
  intros fuel D h x v E. unfold header in E. destruct (assigning h) as [[[name k] [|a r]]|] eqn:A.
  - apply assigning_some in A. destruct (expand fuel D name) as [nm|] eqn:N; [|discriminate]. apply expand_sound in N. injection E as <- <-.
    destruct k; try (eapply DH_set; [exact A|exact N|cbn; tauto|left; discriminate]).
    destruct (D (trim (chars nm))) as [old|] eqn:Q; [eapply DH_more; eauto|eapply DH_set; [exact A|exact N|cbn; tauto|right; exact Q]].
  - apply assigning_some in A. injection E as <- <-. apply DH_name. intros name' k' A'. destruct (assigns_unique _ _ _ _ _ _ _ A A') as (_ & _ & X). discriminate.
  - injection E as <- <-. apply DH_name. intros name' k'. apply assigning_none. exact A.
Qed.

(** * Makefiles *)
Definition commentb (t : text) : bool := begins_charb c_hash (lstrip fst t).
Lemma commentb_no : forall t, commentb t = false -> ~ is_comment_text t.
Proof. intros t E (h & u & L & F). unfold commentb in E. rewrite L in E. cbn in E. unfold is in E. rewrite F, N.eqb_refl in E. discriminate. Qed.

(** The text after the last `#`. *)
Fixpoint last_hash (t : text) : option (text * text) :=
  match t with
  | [] => None
  | a :: t' => match last_hash t' with
               | Some (p, r) => Some (a :: p, r)
               | None => if is c_hash a then Some ([a], t') else None
               end
  end.
Lemma last_hash_none : forall t, last_hash t = None -> ~ has fst c_hash t.
Proof.
  induction t as [|a t IH]; intros E (b & I & F); [destruct I|]. cbn in E. destruct (last_hash t) as [[p r]|]; [discriminate|].
  destruct (is c_hash a) eqn:Q; [discriminate|]. destruct I as [<-|I]; [unfold is in Q; rewrite F, N.eqb_refl in Q; discriminate|].
  apply (IH eq_refl). exists b. auto.
Qed.
Lemma last_hash_some : forall t p r, last_hash t = Some (p, r) -> t = p ++ r /\ match rev p with [] => True | c :: _ => fst c = c_hash end /\ ~ has fst c_hash r /\ p <> [].
Proof.
  induction t as [|a t IH]; intros p r E; [discriminate|]. cbn in E. destruct (last_hash t) as [[p' r']|] eqn:L.
  - injection E as <- <-. destruct (IH _ _ eq_refl) as (-> & A & B & C). split; [reflexivity|]. split; [|split; [exact B|discriminate]].
    cbn. destruct (rev p') as [|c q] eqn:R; [|exact A]. apply (f_equal (@rev placed)) in R. rewrite rev_involutive in R. cbn in R. congruence.
  - destruct (is c_hash a) eqn:Q; [|discriminate]. injection E as <- <-. split; [reflexivity|]. split; [apply N.eqb_eq; exact Q|].
    split; [apply last_hash_none; exact L|discriminate].
Qed.
Definition comment (fuel : nat) (t : text) : option text :=
  match lstrip fst t with
  | h :: u => if is c_hash h then
                let '(p, v) := match last_hash u with Some (p, v) => (p, v) | None => ([], u) end in
                match logical fuel v with Some (_, _, rest) => Some rest | None => None end
              else None
  | [] => None
  end.
Lemma comment_sound : forall fuel t rest, comment fuel t = Some rest -> comment_text t rest.
Proof.
  intros fuel t rest E. unfold comment in E. destruct (lstrip fst t) as [|h u] eqn:L; [discriminate|]. destruct (is c_hash h) eqn:Q; [|discriminate].
  apply N.eqb_eq in Q. destruct (last_hash u) as [[p v]|] eqn:LH.
  - apply last_hash_some in LH as (-> & A & B & _). destruct (logical fuel v) as [[[ls last] r]|] eqn:G; [|discriminate]. injection E as <-.
    exists h, p, v, ls, last. split; [exact L|]. split; [exact Q|]. split; [exact A|]. split; [exact B|]. eapply logical_sound; exact G.
  - apply last_hash_none in LH. destruct (logical fuel u) as [[[ls last] r]|] eqn:G; [|discriminate]. injection E as <-.
    exists h, [], u, ls, last. split; [exact L|]. split; [exact Q|]. split; [exact Logic.I|]. split; [exact LH|]. eapply logical_sound; exact G.
Qed.

Definition include_of (fuel : nat) (D : defs) (l : text) : option (bool * list str) :=
  let names (soft : bool) (r : text) :=
    match expand fuel D r with
    | Some m => if hasb c_bslash m then None else Some (soft, List.map chars (names_in m))
    | None => None
    end in
  match word_of "include" l with
  | Some r => names false r
  | None =>
  match word_of "sinclude" l with
  | Some r => names true r
  | None => match word_of "-include" l with Some r => names true r | None => None end
  end end.
Lemma include_sound : forall fuel D l soft ns, include_of fuel D l = Some (soft, ns) -> include_line D l soft ns.
Proof.
  intros fuel D l soft ns E. unfold include_of in E.
  assert (H : forall k s r, In (k, s) include_words -> keyword k l r ->
    match expand fuel D r with Some m => if hasb c_bslash m then None else Some (s, List.map chars (names_in m)) | None => None end = Some (soft, ns) ->
    include_line D l soft ns).
  { intros k s r I K X. destruct (expand fuel D r) as [m|] eqn:Em; [|discriminate]. destruct (hasb c_bslash m) eqn:Hb; [discriminate|]. injection X as <- <-.
    exists k, r, m. split; [exact I|]. split; [exact K|]. split; [eapply expand_sound; exact Em|]. split; [apply hasb_no; exact Hb|reflexivity]. }
  destruct (word_of "include" l) as [r|] eqn:K1; [eapply H; [|apply word_of_some; exact K1|exact E]; cbn; tauto|].
  destruct (word_of "sinclude" l) as [r|] eqn:K2; [eapply H; [|apply word_of_some; exact K2|exact E]; cbn; tauto|].
  destruct (word_of "-include" l) as [r|] eqn:K3; [eapply H; [|apply word_of_some; exact K3|exact E]; cbn; tauto|discriminate].
Qed.

(** * Evaluated text *)
Definition entire_with (run : text -> bool) (v : value) : bool :=
  match v with
  | Deferred _ t => run t
  | Fixed t _ _ => negb (hasb dollar t) && unbrokenb t
  | Appended (Deferred _ []) false (Deferred _ t) => run t
  | Appended _ _ _ => false
  end.
Fixpoint entireb (fuel : nat) (D : defs) (t : text) : bool :=
  match fuel with
  | 0 => false
  | S fuel =>
      let variable (x : str) := match D x with None => true | Some v => entire_with (entireb fuel D) v end in
      (negb (hasb dollar t) && unbrokenb t) ||
      match t with
      | x :: b :: u =>
          is dollar x &&
          (if is open_paren b then
             match grab open_paren close_paren 0 u with
             | Some (inner, []) =>
                 if calls_function inner then false else
                 match expand fuel D inner with Some nm => plainb nm && variable (chars nm) | None => false end
             | _ => false
             end
           else match u with [] => negb (is dollar b) && negb (is close_brace b) && variable [fst b] | _ => false end)
      | _ => false
      end
  end.
Lemma entire_with_sound : forall D run, (forall t, run t = true -> entire D t) -> forall v, entire_with run v = true -> entire_value D v.
Proof.
  intros D run IH [k t|t m|v sp v'] E; cbn [entire_with] in E.
  - apply EV_deferred, IH, E.
  - apply andb_prop in E as [E1 E2]. apply EV_fixed; [apply hasb_no, negb_true_iff, E1|apply unbrokenb_sound, E2].
  - destruct v as [k [|? ?]| |]; try discriminate. destruct sp; try discriminate. destruct v'; try discriminate. apply EV_define, IH, E.
Qed.
Lemma entireb_sound : forall D fuel t, entireb fuel D t = true -> entire D t.
Proof.
  intros D. induction fuel as [|fuel IH]; intros t E; [discriminate|]. cbn [entireb] in E.
  assert (X : forall x, match D x with None => true | Some v => entire_with (entireb fuel D) v end = true -> forall v, D x = Some v -> entire_value D v).
  { intros x Ex v Dx. rewrite Dx in Ex. exact (entire_with_sound D _ IH v Ex). }
  apply orb_prop in E as [E|E].
  { apply andb_prop in E as [E1 E2]. apply EN_text; [apply hasb_no, negb_true_iff, E1|apply unbrokenb_sound, E2]. }
  destruct t as [|x [|b u]]; try discriminate. apply andb_prop in E as [E1 E2]. apply N.eqb_eq in E1. destruct (is open_paren b) eqn:Qb.
  - destruct (grab open_paren close_paren 0 u) as [[inner [|? ?]]|] eqn:G; try discriminate.
    destruct (calls_function inner) eqn:CF; [discriminate|]. destruct (expand fuel D inner) as [nm|] eqn:En; [|discriminate].
    apply andb_prop in E2 as [E2 E3]. eapply EN_ref; [exact E1|apply N.eqb_eq; exact Qb|apply grab_group; [discriminate|exact G]|
      apply calls_function_no; exact CF|apply expand_sound with fuel; exact En|apply plainb_plain; exact E2|apply X; exact E3].
  - destruct u; [|discriminate]. apply andb_prop in E2 as [E2 E4]. apply andb_prop in E2 as [E2 E3]. apply negb_true_iff in E2, E3.
    apply N.eqb_neq in E2, E3, Qb. apply EN_char; [exact E1| |apply X; exact E4]. intros [I|[I|[I|[]]]]; congruence.
Qed.

Definition eval_of (fuel : nat) (D : defs) (l : text) : option text :=
  match l with
  | x :: b :: v =>
      if is dollar x && is open_paren b && freeb [semicolon; c_bslash] l then
        match grab open_paren close_paren 0 v with
        | Some (inner, u) =>
            match next_word fuel u with
            | Some (tail, after) =>
                if nil_or_blank after && starts_with (lit "eval") (chars inner) then
                  let arg := lstrip fst (skipn 4 inner) in
                  if entireb fuel D arg then expand fuel D arg else None
                else None
            | None => None
            end
        | None => None
        end
      else None
  | _ => None
  end.
Lemma eval_of_sound : forall fuel D l m, eval_of fuel D l = Some m -> eval_line D l m.
Proof.
  intros fuel D l m E. unfold eval_of in E. destruct l as [|x [|b v]]; try discriminate.
  destruct (is dollar x && is open_paren b && freeb [semicolon; c_bslash] (x :: b :: v)) eqn:Q; [|discriminate].
  apply andb_prop in Q as [Q Q3]. apply andb_prop in Q as [Q1 Q2]. apply N.eqb_eq in Q1, Q2.
  destruct (grab open_paren close_paren 0 v) as [[inner u]|] eqn:G; [|discriminate].
  destruct (next_word fuel u) as [[tail after]|] eqn:K; [|discriminate]. destruct (nil_or_blank after && _) eqn:B; [|discriminate].
  apply andb_prop in B as [B1 B2]. cbv zeta in E. destruct (entireb fuel D _) eqn:EN; [|discriminate].
  apply next_word_sound in K as (-> & WT). apply grab_group in G; [|discriminate]. destruct G as (G1 & G2 & z & Z & ->).
  exists x, b, (inner ++ z :: tail), inner, tail, after, (skipn 4 inner).
  split; [cbn; rewrite <- app_assoc; reflexivity|]. split; [exact Q1|]. split; [exact Q2|].
  split; [split; [exact G1|split; [exact G2|exists z; split; [exact Z|reflexivity]]]|]. split; [exact WT|]. split; [apply nil_or_blank_sound, B1|].
  split; [apply freeb_free, Q3|]. split; [|split; [apply expand_sound with fuel; exact E|apply entireb_sound with fuel; exact EN]].
  apply starts_with_iff in B2 as (y & Y). exists (firstn 4 inner). split; [symmetry; apply firstn_skipn|].
  unfold chars in *. rewrite <- firstn_map, Y, firstn_app. reflexivity.
Qed.

(** What the first line does: a step, an include, or the evaluation of text. *)
Inductive line_action := Step (st : mstate) (rest : text) | Include (soft : bool) (names : list str) (rest : text) | Evaluate (m : text) (rest : text).
Definition m_direct (fuel : nat) (st : mstate) (t : text) : option line_action :=
    match line fuel t with
    | None => None
    | Some (l, rest) =>
        match l with
        | [] => Some (Step st rest)
        | _ =>
            if negb (solidb l) then None
            else match conditional fuel (m_defs st) l with
            | Some e => match enter (m_conds st) e with
                        | Some c => Some (Step (with_conds st c (ignoring_after (m_ignoring st) e c)) rest)
                        | None => None
                        end
            | None =>
                if negb (unconditionalb fuel l) then None
                else if m_ignoring st then Some (Step st rest)
                else match assigning l with
                | Some (name, k, v) =>
                    match expand fuel (m_defs st) name with
                    | Some nm =>
                        let x := trim (chars nm) in
                        match assign fuel (m_defs st) x k v with
                        | Some value => Some (Step (with_defs (closed st) (set (m_defs st) x value)) rest)
                        | None => None
                        end
                    | None => None
                    end
                | None =>
                    match word_of "define" l with
                    | Some u =>
                        match header fuel (m_defs st) (lstrip fst u) with
                        | Some (x, v) => Some (Step (with_define (with_defs (closed st) (set (m_defs st) x v)) (Some (x, 1))) rest)
                        | None => None
                        end
                    | None =>
                        if negb (none_of modifier_words l) then None
                        else match include_of fuel (m_defs st) l with
                        | Some (soft, names) => Some (Include soft names rest)
                        | None =>
                            if negb (none_of directive_words l) then None
                            else match uncontinued fuel t with
                            | Some (l', rest') =>
                                if list_eq_dec N.eq_dec (chars l') (chars l) then
                                match logical fuel l' with
                                | Some ([], u, _) =>
                                    if solidb l' && (unconditionalb fuel l' && none_of (modifier_words ++ directive_words) l') then
                                    match assigning l' with
                                    | Some _ => None
                                    | None =>
                                    match rule fuel (m_defs st) u with
                                    | Some (LRule r) => Some (Step (with_rule (closed st) (Some r)) rest')
                                    | Some LIdle => Some (Step (closed st) rest')
                                    | None => match eval_of fuel (m_defs st) u with Some m => Some (Evaluate m rest') | None => None end
                                    end
                                    end else None
                                | _ => None
                                end
                                else None
                            | None => None
                            end
                        end
                    end
                end
            end
        end
    end.
Definition m_act (fuel : nat) (st : mstate) (t : text) : option line_action :=
  if commentb t then match comment fuel t with Some rest => Some (Step st rest) | None => None end
  else
  match m_rule st with
  | Some r =>
      match t with
      | c :: u => if is c_tab c then
                    match recipe fuel u with
                    | Some (b, rest) => if expr fuel b then Some (Step (with_rule st (Some (with_line r b))) rest) else None
                    | None => None
                    end
                  else match m_define st with None => m_direct fuel st t | Some _ => None end
      | [] => None
      end
  | None =>
      match m_define st with
      | None => m_direct fuel st t
      | Some (x, n) =>
          match body t with
          | Some (l, rest) =>
              if negb (expr fuel l) then None
              else match depth n l with
              | Some 0 => match n with 1 => Some (Step (with_define st None) rest) | _ => None end
              | Some n' => match m_defs st x with
                           | Some old => Some (Step (with_define (with_defs st (set (m_defs st) x (Appended old false (Deferred FlRecursive l)))) (Some (x, n'))) rest)
                           | None => None
                           end
              | None => None
              end
          | None => None
          end
      end
  end.

Ltac split_opt E :=
  match type of E with
  | match ?x with _ => _ end = _ => let Q := fresh "Q" in destruct x eqn:Q; try discriminate E
  end.

Lemma act_sound : forall fuel st t a, m_act fuel st t = Some a ->
  match a with
  | Step st' rest => step st t st' rest
  | Include soft names rest => exists l, ~ is_comment_text t /\ directly st t /\ line_text t l rest /\ solid l /\ m_ignoring st = false /\
      unconditional l /\ begins_none modifier_words l /\ no_assignment l /\ include_line (m_defs st) l soft names
  | Evaluate m rest => exists l u u', ~ is_comment_text t /\ directly st t /\ plain_line t l rest /\ solid l /\ m_ignoring st = false /\
      unconditional l /\ begins_none (modifier_words ++ directive_words) l /\ no_assignment l /\ logical_line fst l [] u u' /\ eval_line (m_defs st) u m
  end.
Proof.
  intros fuel st t a E. unfold m_act in E. destruct (commentb t) eqn:CB.
  { destruct (comment fuel t) as [rest|] eqn:C; [|discriminate]. injection E as <-. apply ST_comment. eapply comment_sound; exact C. }
  apply commentb_no in CB.
  assert (DR : directly st t -> m_direct fuel st t = Some a ->
    match a with
    | Step st' rest => step st t st' rest
    | Include soft names rest => exists l, ~ is_comment_text t /\ directly st t /\ line_text t l rest /\ solid l /\ m_ignoring st = false /\
      unconditional l /\ begins_none modifier_words l /\ no_assignment l /\ include_line (m_defs st) l soft names
  | Evaluate m rest => exists l u u', ~ is_comment_text t /\ directly st t /\ plain_line t l rest /\ solid l /\ m_ignoring st = false /\
      unconditional l /\ begins_none (modifier_words ++ directive_words) l /\ no_assignment l /\ logical_line fst l [] u u' /\ eval_line (m_defs st) u m
    end).
  { clear E. intros DI E. unfold m_direct in E. destruct (line fuel t) as [[l rest]|] eqn:L; [|discriminate]. apply line_sound in L.
    destruct l as [|c0 l0]; [injection E as <-; apply ST_blank; auto|]. set (l := c0 :: l0) in *. clearbody l.
    destruct (solidb l) eqn:SO; [|discriminate]. cbn [negb] in E. apply solidb_solid in SO.
    destruct (conditional fuel (m_defs st) l) as [e|] eqn:CO.
    { destruct (enter (m_conds st) e) as [c|] eqn:EN; [|discriminate]. injection E as <-. eapply ST_conditional; eauto. eapply conditional_sound; exact CO. }
    destruct (unconditionalb fuel l) eqn:NC; [|discriminate]. cbn [negb] in E. apply unconditionalb_sound in NC.
    destruct (m_ignoring st) eqn:IG; [injection E as <-; eapply ST_ignored; eauto|].
    destruct (assigning l) as [[[name k] v]|] eqn:AS.
    { apply assigning_some in AS. destruct (expand fuel (m_defs st) name) as [nm|] eqn:EN; [|discriminate]. apply expand_sound in EN.
      cbv zeta in E. destruct (assign _ _ _ k v) as [value|] eqn:AV; [|discriminate]. injection E as <-.
      eapply ST_assignment; eauto. eapply assign_sound; exact AV. }
    apply assigning_none in AS. destruct (word_of "define" l) as [u|] eqn:WD.
    { apply word_of_some in WD. destruct (header _ _ _) as [[x v]|] eqn:H; [|discriminate]. injection E as <-. eapply ST_define; eauto. eapply header_sound; exact H. }
    destruct (none_of modifier_words l) eqn:NM; [|discriminate]. cbn [negb] in E. apply none_of_sound in NM.
    destruct (include_of _ _ l) as [[soft names]|] eqn:IN.
    { injection E as <-. exists l. apply include_sound in IN. tauto. }
    destruct (none_of directive_words l) eqn:ND; [|discriminate]. cbn [negb] in E.
    destruct (uncontinued fuel t) as [[l' rest']|] eqn:UN; [|discriminate]. apply uncontinued_sound in UN.
    destruct (list_eq_dec N.eq_dec (chars l') (chars l)); [|discriminate].
    destruct (logical fuel l') as [[[[|] u] u']|] eqn:LG; try discriminate. apply logical_sound in LG.
    destruct (solidb l' && _) eqn:SN; [|discriminate]. apply andb_prop in SN as [S1 S2]. apply solidb_solid in S1. apply andb_prop in S2 as [S3 S2]. apply unconditionalb_sound in S3. apply none_of_sound in S2.
    destruct (assigning l') eqn:A'; [discriminate|]. apply assigning_none in A'.
    destruct (rule fuel (m_defs st) u) as [[r|]|] eqn:RU; [apply rule_sound in RU; injection E as <-..|].
    - eapply ST_rule; eauto.
    - eapply ST_idle; eauto.
    - destruct (eval_of fuel (m_defs st) u) as [m|] eqn:EV; [|discriminate]. injection E as <-. apply eval_of_sound in EV.
      exists l', u, u'. tauto. }
  destruct (m_rule st) as [r|] eqn:MR.
  - destruct t as [|c u]; [discriminate|]. destruct (is c_tab c) eqn:Q.
    + destruct (recipe fuel u) as [[b rest]|] eqn:R; [|discriminate]. destruct (expr fuel b) eqn:X; [|discriminate]. injection E as <-.
      eapply ST_recipe; eauto; [apply N.eqb_eq; exact Q|eapply recipe_sound; exact R|eapply expr_expression; exact X].
    + destruct (m_define st) eqn:MD; [discriminate|]. apply DR; [|exact E]. split; [|exact MD]. intros _ (a' & v & H & F). injection H as <- <-.
      unfold is in Q. rewrite F, N.eqb_refl in Q. discriminate.
  - destruct (m_define st) as [[x n]|] eqn:MD.
    + destruct (body t) as [[l rest]|] eqn:B; [|discriminate]. apply body_sound in B. destruct (expr fuel l) eqn:X; [|discriminate]. cbn [negb] in E. apply expr_expression in X.
      destruct (depth n l) as [[|n']|] eqn:DP; [| |discriminate]; apply depth_sound in DP.
      * destruct n as [|[|n]]; try discriminate. injection E as <-. eapply ST_endef; eauto.
      * destruct (m_defs st x) as [old|] eqn:O; [|discriminate]. injection E as <-. eapply ST_body; eauto.
    + apply DR; [|exact E]. split; [intros H; rewrite MR in H; congruence|exact MD].
Qed.

Fixpoint m_take (fs : str -> file) (run : mstate -> text -> option mstate) (soft : bool) (names : list str) (st : mstate) : option mstate :=
  match names with
  | [] => Some st
  | n :: ns =>
      match fs n with
      | FText t => match run (fresh st n) (file_text (number st n) t) with
                   | Some st1 => m_take fs run soft ns (resume st st1)
                   | None => None
                   end
      | FOpenError _ => if soft then m_take fs run soft ns st else None
      | _ => None
      end
  end.
Fixpoint m_run (fs : str -> file) (fuel : nat) (st : mstate) (t : text) : option mstate :=
  match fuel with
  | 0 => None
  | S fuel =>
      match t with
      | [] => Some st
      | _ =>
          match m_act 500 st t with
          | Some (Step st' rest) => m_run fs fuel st' rest
          | Some (Include soft names rest) =>
              match m_take fs (m_run fs fuel) soft names (closed st) with Some st' => m_run fs fuel st' rest | None => None end
          | Some (Evaluate m rest) =>
              match m_run fs fuel (nested st) m with Some st1 => m_run fs fuel (closed (resume st st1)) rest | None => None end
          | None => None
          end
      end
  end.

Lemma run_sound : forall fs fuel st t st', m_run fs fuel st t = Some st' -> runs fs st t st'.
Proof.
  intros fs. induction fuel as [|fuel IH]; intros st t st' E; [discriminate|]. cbn [m_run] in E. destruct t as [|a t]; [injection E as <-; apply RU_end|].
  destruct (m_act 500 st (a :: t)) as [[st1 rest|soft names rest|m rest]|] eqn:A; [| | |discriminate]; apply act_sound in A.
  - eapply RU_line; [discriminate|exact A|apply IH; exact E].
  - destruct A as (l & A1 & A2 & A3 & A4 & A5 & A6 & A7 & A8 & A9).
    destruct (m_take fs (m_run fs fuel) soft names (closed st)) as [st1|] eqn:T; [|discriminate].
    eapply RU_include; eauto. clear - T IH. revert T. generalize (closed st). clear st. induction names as [|n ns IHn]; intros st T; cbn [m_take] in T.
    + injection T as <-. apply TI_none.
    + destruct (fs n) as [k|k|t] eqn:F; [|discriminate|].
      * destruct soft; [|discriminate]. eapply TI_skip; [exact F|apply IHn; exact T].
      * destruct (m_run fs fuel (fresh st n) (file_text (number st n) t)) as [st2|] eqn:R; [|discriminate].
        eapply TI_file; [exact F|apply IH; exact R|apply IHn; exact T].
  - destruct A as (l & u & u' & A1 & A2 & A3 & A4 & A5 & A6 & A7 & A8 & A9 & A10).
    destruct (m_run fs fuel (nested st) m) as [st1|] eqn:R; [|discriminate].
    exact (RU_eval fs st (a :: t) l rest u u' m st1 st' A1 A2 A3 A4 A5 A6 A7 A8 A9 A10 (IH _ _ _ R) (IH _ _ _ E)).
Qed.
