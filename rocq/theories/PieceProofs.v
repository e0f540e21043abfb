(** Texts in pieces: where the pieces begin, up to blanks. *)
From Coq Require Import String ZArith.
From Verif Require Import Base LocModel EvdModel AstModel EngineModel EvdSpec DbSpec ParseModel ParseSpec EvalSpec AstParseSpec EngineSpec MakeSpec
  ParseProofs EvdProofs2 SubstProofs EvalProofs2 AstParseProofs.
Local Open Scope nat_scope.

Definition loc_dec : forall a b : location, {a = b} + {a <> b}.
Proof. decide equality; first [apply N.eq_dec|apply Nat.eq_dec|apply Z.eq_dec]. Defined.
Lemma follows_dec : forall x y, {AstParseSpec.follows x y} + {~ AstParseSpec.follows x y}.
Proof.
  intros x y. unfold AstParseSpec.follows. destruct (loc_dec (snd x) Synthetic); [right; tauto|].
  destruct (loc_dec (snd y) (step_location (snd x) (fst x))); [left; tauto|right; tauto].
Qed.

(** * Where pieces begin, blanks aside *)
Definition ntag (m : bool * placed) : bool * placed := (if blank (fst (snd m)) then false else fst m, snd m).
Definition alike (ps qs : list text) : Prop := List.map ntag (in_pieces ps) = List.map ntag (in_pieces qs).

Lemma alike_refl : forall ps, alike ps ps.
Proof. reflexivity. Qed.
Lemma alike_trans : forall a b c, alike a b -> alike b c -> alike a c.
Proof. unfold alike. congruence. Qed.
Lemma alike_sym : forall a b, alike a b -> alike b a.
Proof. unfold alike. congruence. Qed.
Lemma alike_app : forall a b c d, alike a b -> alike c d -> alike (a ++ c) (b ++ d).
Proof. intros a b c d H K. unfold alike in *. rewrite !in_pieces_app, !map_app. congruence. Qed.
Lemma alike_full : forall ps, alike (filter full ps) ps.
Proof. intros ps. unfold alike. rewrite in_pieces_full. reflexivity. Qed.
Lemma alike_concat : forall ps qs, alike ps qs -> concat ps = concat qs.
Proof.
  intros ps qs H. rewrite <- !in_pieces_snd. apply (f_equal (List.map snd)) in H. rewrite !map_map in H. exact H.
Qed.

Lemma split_ntag : forall l w, Forall (fun m => blank (tch fst m) = false) w ->
  split_at (tch fst) blank w (List.map ntag l) = split_at (tch fst) blank w l.
Proof.
  induction l as [|[b c] l IH]; intros w F; [reflexivity|]. cbn [List.map split_at]. change (tch fst (ntag (b, c))) with (fst c). change (tch fst (b, c)) with (fst c).
  destruct (blank (fst c)) eqn:B.
  - rewrite (IH [] (Forall_nil _)). reflexivity.
  - unfold ntag. cbn [snd fst]. rewrite B. apply IH. apply Forall_app. split; [exact F|]. constructor; [exact B|constructor].
Qed.
Lemma subst_words_ntag : forall l, subst_words (tch fst) (List.map ntag l) = subst_words (tch fst) l.
Proof. intros l. pose proof (split_ntag l [] (Forall_nil _)) as E. unfold subst_words. destruct l as [|m l]; [reflexivity|]. cbn [List.map] in *. rewrite E. reflexivity. Qed.
Lemma alike_cut : forall sp k r ps qs out, alike ps qs -> cut_substituted fst sp k r ps out -> cut_substituted fst sp k r qs out.
Proof.
  intros sp k r ps qs out H (pk & qk & pr & qr & ws & P & F & E). exists pk, qk, pr, qr, ws. split; [exact P|]. split; [|exact E].
  rewrite <- subst_words_ntag, <- H, subst_words_ntag. exact F.
Qed.

(** * Texts written in pieces *)
Fixpoint breaks (prev : option placed) (t : text) : list (bool * placed) :=
  match t with
  | [] => []
  | y :: u => (match prev with Some x => if follows_dec x y then false else true | None => true end, y) :: breaks (Some y) u
  end.

(** Between two characters of the text there is a break only before a blank. *)
Definition loose (q : text) : Prop := forall p x y r, q = p ++ x :: y :: r -> AstParseSpec.follows x y \/ blank (fst y) = true.

Lemma loose_tail : forall x q, loose (x :: q) -> loose q.
Proof. intros x q L p a b r ->. exact (L (x :: p) a b r eq_refl). Qed.

Lemma last_any : forall {A} (l : list A) a b, l <> [] -> last l a = last l b.
Proof. intros A l a b N. destruct (exists_last N) as (u & x & ->). rewrite !last_last. reflexivity. Qed.

Lemma loose_breaks : forall q x u, loose (x :: q) -> 
  List.map ntag (breaks (Some x) (q ++ u)) = List.map ntag (List.map (pair false) q) ++ List.map ntag (breaks (Some (last q x)) u).
Proof.
  induction q as [|y q IH]; intros x u L; [reflexivity|]. cbn [app breaks List.map]. f_equal.
  - unfold ntag. cbn [fst snd]. destruct (L [] x y q eq_refl) as [F|B]; [|rewrite B; reflexivity].
    destruct (follows_dec x y); [destruct (blank (fst y)); reflexivity|contradiction].
  - rewrite (IH y u (loose_tail _ _ L)). rewrite (last_any (y :: q) x y) by discriminate. destruct q; reflexivity.
Qed.

Lemma pieces_breaks : forall ps prev, Forall (fun q => q <> [] /\ loose q) ps -> parted (fun q => q) ps ->
  (forall x y u, prev = Some x -> concat ps = y :: u -> ~ AstParseSpec.follows x y) ->
  List.map ntag (in_pieces ps) = List.map ntag (breaks prev (concat ps)).
Proof.
  induction ps as [|q ps IH]; intros prev F P Hp; [reflexivity|]. inversion F as [|? ? (Nq & Lq) F']; subst.
  destruct q as [|y q]; [contradiction|]. unfold in_pieces. cbn [List.map concat piece_marks app breaks]. f_equal.
  - destruct prev as [x|]; [|reflexivity]. destruct (follows_dec x y) as [H|H]; [|reflexivity].
    destruct (Hp x y (q ++ concat ps) eq_refl eq_refl H).
  - rewrite map_app, (loose_breaks q y _ Lq). f_equal. apply (IH (Some (last q y))); [exact F'| |].
    + intros p r u x z v E1 E2 E3. rewrite map_id in *. apply (P ((y :: q) :: p) r (y :: q ++ u) x z v); [cbn; now rewrite E1| |exact E3 || (rewrite map_id; exact E3)].
      cbn [List.map concat]. rewrite map_id, E2. rewrite app_assoc. reflexivity.
    + intros x z v [= <-] E. destruct (exists_last (l := y :: q) ltac:(discriminate)) as (u & x & Ex).
      apply (P [y :: q] ps u (last q y) z v); [reflexivity| |rewrite map_id; exact E].
      cbn. rewrite app_nil_r, Ex. f_equal. f_equal. destruct q as [|b q]; [destruct u as [|? [|? ?]]; [injection Ex as <-; reflexivity|discriminate..]|].
      destruct u as [|a u]; [discriminate|]. injection Ex as _ Ex. change (last (b :: q) y) with (last (b :: q) y). rewrite Ex. symmetry. apply last_last.
Qed.

Lemma unbroken_loose : forall q, unbroken q -> loose q.
Proof. intros q U p x y r E. left. exact (U p x y r E). Qed.

Lemma mark_adjacent : forall s l p x y q, mark l s = p ++ x :: y :: q -> AstParseSpec.follows x y \/ snd x = Synthetic /\ snd y = Synthetic.
Proof.
  induction s as [|c s IH]; intros l p x y q E; [destruct p; discriminate|]. cbn [mark] in E. destruct p as [|z p]; cbn in E.
  - injection E as <- E. destruct s as [|c' s]; [discriminate|]. cbn in E. injection E as <- _. cbn [snd fst].
    destruct (loc_dec l Synthetic) as [->|N]; [right; split; [reflexivity|]; unfold step_location; destruct (c =? c_nl)%N; reflexivity|left; split; [exact N|reflexivity]].
  - injection E as _ E. exact (IH _ _ _ _ _ E).
Qed.

Lemma spelled_alike : forall cs t qs, spells cs t -> parted located_marks cs -> written_in t qs -> alike (List.map located_marks cs) qs.
Proof.
  intros cs t qs (E & Ne) P (Et & Fq & Pq & Sy). unfold segments_marks in E. unfold alike.
  rewrite (pieces_breaks (List.map located_marks cs) None), (pieces_breaks qs None); try discriminate.
  - congruence.
  - eapply Forall_impl; [|exact Fq]. intros q (A & B). split; [exact A|apply unbroken_loose; exact B].
  - exact Pq.
  - apply Forall_forall. intros q I. apply in_map_iff in I as (g & <- & I). rewrite Forall_forall in Ne. split.
    + intros Q. apply (Ne g I). destruct g as [l [|c s]]; [reflexivity|discriminate].
    + intros p x y r Q. destruct (mark_adjacent _ _ _ _ _ _ Q) as [H|[H1 H2]]; [now left|right].
      apply in_split in I as (g1 & g2 & ->). rewrite map_app, concat_app in E. cbn [List.map concat] in E. change (located_marks g = p ++ x :: y :: r) in Q. rewrite Q in E.
      apply (Sy (concat (List.map located_marks g1) ++ p) x y (r ++ concat (List.map located_marks g2))); [|exact H1|exact H2].
      rewrite <- E, <- !app_assoc. reflexivity.
  - intros p q u x y v E1 E2 E3. rewrite map_id in *. apply map_eq_app in E1 as (cp & cq & -> & <- & <-). exact (P cp cq u x y v eq_refl E2 E3).
Qed.

(** A text is written in one way. *)
Lemma runs_unique : forall qs qs', Forall (fun q => q <> [] /\ unbroken q) qs -> Forall (fun q => q <> [] /\ unbroken q) qs' ->
  parted (fun q => q) qs -> parted (fun q => q) qs' -> concat qs = concat qs' -> qs = qs'.
Proof.
  assert (T : forall (q : text) qs, parted (fun q => q) (q :: qs) -> parted (fun q => q) qs).
  { intros q qs P p r u x z v E1 E2 E3. rewrite map_id in *. apply (P (q :: p) r (q ++ u) x z v); [cbn; now rewrite E1| |rewrite map_id; exact E3].
    cbn [List.map concat]. rewrite map_id, E2, app_assoc. reflexivity. }
  assert (G : forall (q q' l : text) qs, q <> [] -> unbroken q' -> parted (fun q => q) (q :: qs) -> q' = q ++ l -> (exists r, concat qs = l ++ r) -> l = []).
  { intros q q' l qs Nq U P E (r & Er). destruct l as [|y l]; [reflexivity|]. exfalso. destruct (exists_last Nq) as (u & x & Eq).
    apply (P [q] qs u x y (l ++ r)); [reflexivity|cbn; rewrite app_nil_r; exact Eq|rewrite map_id; exact Er|].
    apply (U u x y l). rewrite E, Eq, <- app_assoc. reflexivity. }
  induction qs as [|q qs IH]; intros [|q' qs'] F F' P P' E; [reflexivity| | |].
  - inversion F' as [|? ? (N & _) _]; subst. cbn in E. symmetry in E. apply app_eq_nil in E as (E & _). contradiction.
  - inversion F as [|? ? (N & _) _]; subst. cbn in E. apply app_eq_nil in E as (E & _). contradiction.
  - inversion F as [|? ? (N & U) F1]; subst. inversion F' as [|? ? (N' & U') F1']; subst. cbn in E.
    assert (q = q') as <-.
    { apply app_eq_app in E as (l & [(-> & Er)|(-> & Er)]).
      - rewrite (G q' (q' ++ l) l qs' N' U P' eq_refl); [apply app_nil_r|]. exists (concat qs). exact Er.
      - rewrite (G q (q ++ l) l qs N U' P eq_refl); [rewrite app_nil_r; reflexivity|]. exists (concat qs'). exact Er. }
    apply app_inv_head in E. f_equal. apply IH; eauto.
Qed.

Lemma written_once : forall t qs qs', written_in t qs -> written_in t qs' -> qs' = qs.
Proof. intros t qs qs' (E & F & P & _) (E' & F' & P' & _). apply runs_unique; auto. congruence. Qed.

Lemma written_one : forall t, t <> [] -> unbroken t -> written_in t [t].
Proof.
  intros t N U. split; [cbn; now rewrite app_nil_r|]. split; [constructor; [auto|constructor]|].
  split; [|intros p x y q E Sx _; destruct (U p x y q E); contradiction].
  intros p q u x y v E A B. rewrite map_id in *. destruct p as [|a p]; [destruct u; discriminate|]. injection E as -> E. destruct p; [|discriminate]. cbn in E. subst q. discriminate.
Qed.

(** Two texts with a break between them. *)
Definition break (a u : text) : Prop := forall p x y v, a = p ++ [x] -> u = y :: v ->
  ~ AstParseSpec.follows x y /\ (snd x = Synthetic -> snd y = Synthetic -> blank (fst y) = true).
Lemma written_app : forall a b qs qs', written_in a qs -> written_in b qs' -> break a b -> written_in (a ++ b) (qs ++ qs').
Proof.
  intros a b qs qs' (E & F & P & S) (E' & F' & P' & S') B. split; [rewrite concat_app; congruence|]. split; [apply Forall_app; auto|]. split.
  - intros p q u x y v E1 E2 E3. rewrite map_id in *. apply app_eq_app in E1 as (l & [(-> & ->)|(-> & ->)]).
    + destruct l as [|z l].
      * rewrite app_nil_r in E, P, F. rewrite E2 in E. cbn [app] in E3. rewrite E3 in E'. exact (proj1 (B u x y v E E')).
      * assert (Nz : z <> []). { rewrite Forall_forall in F. apply (F z). apply in_or_app. right. now left. } destruct z as [|c z]; [contradiction|].
        injection E3 as -> E3. apply (P p ((y :: z) :: l) u x y (z ++ concat l)); [reflexivity|rewrite map_id; exact E2|rewrite map_id; reflexivity].
    + destruct l as [|z l] using rev_ind.
      * rewrite app_nil_r in E2. cbn [app] in E'. rewrite E2 in E. rewrite E3 in E'. exact (proj1 (B u x y v E E')).
      * clear IHl. assert (Nz : z <> []). { rewrite Forall_forall in F'. apply (F' z). rewrite !in_app_iff. left. right. now left. }
        destruct (exists_last Nz) as (z' & c & ->). rewrite !concat_app in E2. cbn [concat] in E2. rewrite app_nil_r, !app_assoc in E2. apply app_inj_tail in E2 as (_ & ->).
        apply (P' (l ++ [z' ++ [x]]) q (concat l ++ z') x y v); [reflexivity|rewrite map_id, concat_app; cbn; rewrite app_nil_r, app_assoc; reflexivity|rewrite map_id; exact E3].
  - intros p x y q Q Sx Sy. apply app_eq_app in Q as (l & [(-> & Q)|(-> & Q)]).
    + destruct l as [|c l]; cbn in Q; [apply (S' [] x y q (eq_sym Q) Sx Sy)|]. injection Q as <- Q. destruct l as [|d l]; cbn in Q.
      * exact (proj2 (B p x y q eq_refl (eq_sym Q)) Sx Sy).
      * injection Q as <- Q. apply (S p x y l eq_refl Sx Sy).
    + apply (S' l x y q Q Sx Sy).
Qed.
(** Text before a text. *)
Lemma text_in_before : forall D a qs u us, text_in D u us -> a <> [] -> ~ has fst dollar a -> written_in a qs ->
  (forall y v, u = y :: v -> fst y <> dollar -> break a u) -> text_in D (a ++ u) (qs ++ us).
Proof.
  intros D a qs u us T Na Nd W B. inversion T as [|t rest qs' ps' Nt Dt Bd W' T' E1 E2|t rest m ps' R S T' E1 E2]; subst.
  - apply TI_text; [exact Na|exact Nd|intros c v Q; discriminate|exact W|constructor].
  - destruct t as [|y t]; [contradiction|]. assert (Ny : fst y <> dollar) by (intros Q; apply Dt; exists y; split; [now left|exact Q]).
    specialize (B y (t ++ rest) eq_refl Ny). rewrite !app_assoc. apply TI_text; auto.
    + intros Q. apply app_eq_nil in Q as (_ & Q). discriminate.
    + intros (c & I & Q). apply in_app_or in I as [I|I]; [apply Nd|apply Dt]; exists c; auto.
    + apply written_app; auto. intros p x z v Q1 Q2. injection Q2 as <- _. apply (B p x y (t ++ rest) Q1 eq_refl).
  - apply TI_text; auto. intros c v Q. inversion R; subst; cbn in Q; injection Q as <- _; assumption.
Qed.
