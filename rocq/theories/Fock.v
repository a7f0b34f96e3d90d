(** Specification: fermion operators on Fock space, independent of the modelled code.
    A vector assigns an amplitude to every occupation list; operators act on vectors.
    [ann i] and [cre i] are shown to satisfy the canonical anticommutation relations and to be
    adjoint to each other, which identifies them up to equivalence. *)
From Coq Require Import ZArith List Arith Lia Bool.
From Verif Require Import Base CRing.
Import ListNotations.
Open Scope nat_scope.

Section Fock.
Variable K : CRing.
Add Ring Kfock : (rth K).
Local Open Scope rng_scope.

Definition vec := list bool -> K.
Definition op := vec -> vec.

Definition occ_at (i : nat) (s : list bool) : bool := nth i s false.
Fixpoint ones (s : list bool) : nat :=
  match s with [] => O | b :: s' => ((if b then 1 else 0) + ones s')%nat end.
(** Jordan-Wigner sign of level i: parity of the electrons on the lower levels *)
Definition jw (i : nat) (s : list bool) : K := sgn K (ones (firstn i s)).
Definition put (i : nat) (b : bool) (s : list bool) : list bool := set_nth i b s.

(** (d_i f)(s): amplitude of s after removing an electron from level i *)
Definition ann (i : nat) : op := fun f s =>
  if occ_at i s then 0 else jw i s * f (put i true s).
(** (d_i^dagger f)(s) *)
Definition cre (i : nat) : op := fun f s =>
  if occ_at i s then jw i s * f (put i false s) else 0.

Definition oplus (a b : op) : op := fun f s => a f s + b f s.
Definition ocomp (a b : op) : op := fun f => a (b f).
Definition oscale (c : K) (a : op) : op := fun f s => c * a f s.
Definition ozero : op := fun _ _ => 0.
Definition oid : op := fun f => f.
Fixpoint osum {A} (F : A -> op) (l : list A) : op :=
  match l with [] => ozero | x :: l' => oplus (F x) (osum F l') end.

Definition basis (s : list bool) : vec := fun t => if list_eq_dec bool_dec t s then 1 else 0.
(** matrix element <s'| a |s> *)
Definition mel (a : op) (s' s : list bool) : K := a (basis s) s'.

(** ** basic facts *)
Lemma put_length : forall i b s, length (put i b s) = length s.
Proof. intros. apply set_nth_length. Qed.

Lemma occ_put_same : forall i b s, (i < length s)%nat -> occ_at i (put i b s) = b.
Proof. intros. unfold occ_at, put. now apply nth_set_same. Qed.
Lemma occ_put_other : forall i j b s, i <> j -> occ_at j (put i b s) = occ_at j s.
Proof. intros. unfold occ_at, put. now apply nth_set_other. Qed.

Lemma put_put_same : forall i b b' s, put i b (put i b' s) = put i b s.
Proof. unfold put, set_nth. induction i; destruct s; simpl; intros; auto. f_equal. auto. Qed.
Lemma put_comm : forall i j b b' s, i <> j -> put i b (put j b' s) = put j b' (put i b s).
Proof.
  unfold put, set_nth. induction i; destruct j, s; simpl; intros; auto; try lia. f_equal. apply IHi. lia.
Qed.
Lemma put_self : forall i s, put i (occ_at i s) s = s.
Proof. unfold put, set_nth, occ_at. induction i; destruct s; simpl; intros; auto. f_equal. auto. Qed.

Lemma ones_put_firstn_ge : forall i j b s, (j <= i)%nat -> firstn j (put i b s) = firstn j s.
Proof.
  unfold put, set_nth. induction i; destruct j, s; simpl; intros; auto; try lia. f_equal. apply IHi. lia.
Qed.
Lemma jw_put_ge : forall i j b s, (j <= i)%nat -> jw j (put i b s) = jw j s.
Proof. intros. unfold jw. now rewrite ones_put_firstn_ge. Qed.

Lemma ones_firstn_put : forall i j s, (i < j)%nat -> (i < length s)%nat ->
  ones (firstn j (put i true s)) = S (ones (firstn j (put i false s))).
Proof.
  unfold put, set_nth. induction i; intros j s Hj Hs; destruct j, s; simpl in *; try lia.
  rewrite IHi; auto; lia.
Qed.

Lemma jw_put_flip : forall i j b s, (i < j)%nat -> (i < length s)%nat -> jw j (put i (negb b) s) = - jw j (put i b s).
Proof.
  intros i j b s H Hs. unfold jw. destruct b; simpl; rewrite ones_firstn_put by auto; rewrite sgn_S; ring.
Qed.
Lemma jw_put_flip' : forall i j b s, (i < j)%nat -> (i < length s)%nat -> occ_at i s = negb b ->
  jw j (put i b s) = - jw j s.
Proof.
  intros i j b s H Hs E. rewrite <- (put_self i s) at 2. rewrite E.
  rewrite <- (negb_involutive b) at 1. now apply jw_put_flip.
Qed.
Lemma jw_sq : forall i s, jw i s * jw i s = 1.
Proof. intros. apply sgn_sq. Qed.

(** ** canonical anticommutation relations *)
Lemma jw_pair : forall i j b b' s, (i < length s)%nat -> (j < length s)%nat -> i <> j ->
  occ_at i s = negb b -> occ_at j s = negb b' ->
  jw i s * jw j (put i b s) = - (jw j s * jw i (put j b' s)).
Proof.
  intros i j b b' s Hi Hj Hne E1 E2. destruct (Nat.lt_ge_cases i j) as [H|H].
  - rewrite (jw_put_flip' i j b s) by auto. rewrite (jw_put_ge j i b' s) by lia. ring.
  - rewrite (jw_put_ge i j b s) by lia. rewrite (jw_put_flip' j i b' s) by (auto; lia). ring.
Qed.

Theorem CAR_ann : forall i j f s, (i < length s)%nat -> (j < length s)%nat ->
  oplus (ocomp (ann i) (ann j)) (ocomp (ann j) (ann i)) f s = 0.
Proof.
  intros i j f s Hi Hj. unfold oplus, ocomp, ann.
  destruct (Nat.eq_dec i j) as [->|Hne].
  - rewrite occ_put_same by auto. destruct (occ_at j s); ring.
  - rewrite !occ_put_other by auto.
    destruct (occ_at i s) eqn:E1, (occ_at j s) eqn:E2; try ring.
    rewrite (put_comm i j) by auto.
    assert (J := jw_pair i j true true s Hi Hj Hne E1 E2).
    transitivity ((jw i s * jw j (put i true s) + jw j s * jw i (put j true s)) * f (put j true (put i true s))).
    + ring.
    + rewrite J. ring.
Qed.

Theorem CAR_cre : forall i j f s, (i < length s)%nat -> (j < length s)%nat ->
  oplus (ocomp (cre i) (cre j)) (ocomp (cre j) (cre i)) f s = 0.
Proof.
  intros i j f s Hi Hj. unfold oplus, ocomp, cre.
  destruct (Nat.eq_dec i j) as [->|Hne].
  - rewrite occ_put_same by auto. destruct (occ_at j s); ring.
  - rewrite !occ_put_other by auto.
    destruct (occ_at i s) eqn:E1, (occ_at j s) eqn:E2; try ring.
    rewrite (put_comm i j) by auto.
    assert (J := jw_pair i j false false s Hi Hj Hne E1 E2).
    transitivity ((jw i s * jw j (put i false s) + jw j s * jw i (put j false s)) * f (put j false (put i false s))).
    + ring.
    + rewrite J. ring.
Qed.

Theorem CAR_mixed : forall i j f s, (i < length s)%nat -> (j < length s)%nat ->
  oplus (ocomp (ann i) (cre j)) (ocomp (cre j) (ann i)) f s = if Nat.eqb i j then f s else 0.
Proof.
  intros i j f s Hi Hj. unfold oplus, ocomp, ann, cre.
  destruct (Nat.eqb_spec i j) as [->|Hne].
  - rewrite !occ_put_same by auto. rewrite !jw_put_ge, !put_put_same by auto.
    pose proof (jw_sq j s) as Q.
    destruct (occ_at j s) eqn:E; rewrite <- E, put_self.
    + transitivity ((jw j s * jw j s) * f s); [ring|]. rewrite Q. ring.
    + transitivity ((jw j s * jw j s) * f s); [ring|]. rewrite Q. ring.
  - rewrite !occ_put_other by auto.
    destruct (occ_at i s) eqn:E1, (occ_at j s) eqn:E2; try ring.
    rewrite (put_comm i j) by auto.
    assert (J := jw_pair i j true false s Hi Hj Hne E1 E2).
    transitivity ((jw i s * jw j (put i true s) + jw j s * jw i (put j false s)) * f (put j false (put i true s))).
    + ring.
    + rewrite J. ring.
Qed.

(** ** action on basis vectors *)
Lemma basis_refl : forall s, basis s s = 1.
Proof. intros. unfold basis. destruct (list_eq_dec bool_dec s s); congruence. Qed.
Lemma basis_neq : forall s t, t <> s -> basis s t = 0.
Proof. intros. unfold basis. destruct (list_eq_dec bool_dec t s); congruence. Qed.
Lemma basis_sym : forall s t, basis s t = basis t s.
Proof.
  intros. unfold basis. destruct (list_eq_dec bool_dec t s), (list_eq_dec bool_dec s t); congruence.
Qed.

Lemma ann_basis : forall i s t, length t = length s -> (i < length s)%nat ->
  ann i (basis s) t = if occ_at i s then jw i s * basis (put i false s) t else 0.
Proof.
  intros i s t HL Hi. unfold ann.
  destruct (occ_at i t) eqn:Et.
  - destruct (occ_at i s) eqn:Es; auto. rewrite basis_neq; [ring|].
    intros ->. rewrite occ_put_same in Et by auto. discriminate.
  - destruct (occ_at i s) eqn:Es.
    + destruct (list_eq_dec bool_dec t (put i false s)) as [->|Hne].
      * rewrite jw_put_ge, put_put_same by auto. rewrite <- Es, put_self, !basis_refl. reflexivity.
      * rewrite !basis_neq; auto. { ring. } intros E. apply Hne. rewrite <- E, put_put_same, <- Et.
        symmetry. apply put_self.
    + rewrite basis_neq; [ring|]. intros E. rewrite <- E in Es. rewrite occ_put_same in Es by lia. discriminate.
Qed.

Lemma cre_basis : forall i s t, length t = length s -> (i < length s)%nat ->
  cre i (basis s) t = if occ_at i s then 0 else jw i s * basis (put i true s) t.
Proof.
  intros i s t HL Hi. unfold cre.
  destruct (occ_at i t) eqn:Et.
  - destruct (occ_at i s) eqn:Es.
    + rewrite basis_neq; [ring|]. intros E. rewrite <- E in Es. rewrite occ_put_same in Es by lia. discriminate.
    + destruct (list_eq_dec bool_dec t (put i true s)) as [->|Hne].
      * rewrite jw_put_ge, put_put_same by auto. rewrite <- Es, put_self, !basis_refl. reflexivity.
      * rewrite !basis_neq; auto. { ring. } intros E. apply Hne. rewrite <- E, put_put_same, <- Et.
        symmetry. apply put_self.
  - destruct (occ_at i s) eqn:Es; auto. rewrite basis_neq; [ring|].
    intros ->. rewrite occ_put_same in Et by auto. discriminate.
Qed.

(** d_i^dagger is the adjoint (transpose) of d_i *)
Theorem adjoint : forall i s t, length t = length s -> (i < length s)%nat -> mel (cre i) t s = mel (ann i) s t.
Proof.
  intros i s t HL Hi. unfold mel. rewrite cre_basis by auto. unfold ann.
  destruct (occ_at i s); auto. rewrite basis_sym. reflexivity.
Qed.

(** operators only look at the amplitudes of lists of the same length *)
Lemma ann_ext : forall i f g s, (forall t, length t = length s -> f t = g t) -> ann i f s = ann i g s.
Proof. intros i f g s H. unfold ann. destruct (occ_at i s); auto. rewrite H; auto. apply put_length. Qed.
Lemma cre_ext : forall i f g s, (forall t, length t = length s -> f t = g t) -> cre i f s = cre i g s.
Proof. intros i f g s H. unfold cre. destruct (occ_at i s); auto. rewrite H; auto. apply put_length. Qed.
Lemma ann_lin : forall i c f s, ann i (fun t => c * f t) s = c * ann i f s.
Proof. intros. unfold ann. destruct (occ_at i s); ring. Qed.
Lemma cre_lin : forall i c f s, cre i (fun t => c * f t) s = c * cre i f s.
Proof. intros. unfold cre. destruct (occ_at i s); ring. Qed.
Lemma ann_zero : forall i s, ann i (fun _ => 0) s = 0.
Proof. intros. unfold ann. destruct (occ_at i s); ring. Qed.
Lemma cre_zero : forall i s, cre i (fun _ => 0) s = 0.
Proof. intros. unfold cre. destruct (occ_at i s); ring. Qed.

(** ** products acting on basis vectors *)
Lemma ann_on : forall i c s f, (i < length s)%nat -> (forall t, length t = length s -> f t = c * basis s t) ->
  forall t, length t = length s ->
  ann i f t = if occ_at i s then (c * jw i s) * basis (put i false s) t else 0.
Proof.
  intros i c s f Hi Hf t Ht. rewrite (ann_ext i f (fun u => c * basis s u)) by (intros; apply Hf; lia).
  rewrite ann_lin, ann_basis by auto. destruct (occ_at i s); ring.
Qed.
Lemma cre_on : forall i c s f, (i < length s)%nat -> (forall t, length t = length s -> f t = c * basis s t) ->
  forall t, length t = length s ->
  cre i f t = if occ_at i s then 0 else (c * jw i s) * basis (put i true s) t.
Proof.
  intros i c s f Hi Hf t Ht. rewrite (cre_ext i f (fun u => c * basis s u)) by (intros; apply Hf; lia).
  rewrite cre_lin, cre_basis by auto. destruct (occ_at i s); ring.
Qed.
Lemma ann_on0 : forall i (f : vec) t, (forall u, length u = length t -> f u = 0) -> ann i f t = 0.
Proof. intros i f t H. rewrite (ann_ext i f (fun _ => 0)) by auto. apply ann_zero. Qed.
Lemma cre_on0 : forall i (f : vec) t, (forall u, length u = length t -> f u = 0) -> cre i f t = 0.
Proof. intros i f t H. rewrite (cre_ext i f (fun _ => 0)) by auto. apply cre_zero. Qed.

Lemma osum_mel : forall A (F : A -> op) l t s, mel (osum F l) t s = rsum (fun x => mel (F x) t s) l.
Proof. induction l; simpl; intros; auto. unfold mel in *. simpl. unfold oplus. now rewrite IHl. Qed.

(** number of electrons *)
Lemma ones_put_true : forall i s, (i < length s)%nat -> occ_at i s = false -> ones (put i true s) = S (ones s).
Proof.
  unfold put, set_nth, occ_at. induction i; destruct s; simpl; intros H E; try lia.
  - rewrite E. lia.
  - rewrite IHi; auto; lia.
Qed.
Lemma ones_put_false : forall i s, (i < length s)%nat -> occ_at i s = true -> S (ones (put i false s)) = ones s.
Proof.
  unfold put, set_nth, occ_at. induction i; destruct s; simpl; intros H E; try lia.
  - rewrite E. lia.
  - specialize (IHi s). rewrite <- IHi; auto; lia.
Qed.
(** ** words of creation ([true]) and annihilation ([false]) operators; the last letter acts first *)
Definition letter (x : bool * nat) : op := if fst x then cre (snd x) else ann (snd x).
Fixpoint word (w : list (bool * nat)) : op :=
  match w with [] => oid | x :: w' => ocomp (letter x) (word w') end.
(** Hermitian adjoint of a word *)
Definition wadj (w : list (bool * nat)) : list (bool * nat) := rev (map (fun x => (negb (fst x), snd x)) w).

Lemma letter_ext : forall x f g s, (forall t, length t = length s -> f t = g t) -> letter x f s = letter x g s.
Proof. intros [[|] i] f g s H; [now apply cre_ext|now apply ann_ext]. Qed.
Lemma letter_lin : forall x c f s, letter x (fun t => c * f t) s = c * letter x f s.
Proof. intros [[|] i] c f s; [apply cre_lin|apply ann_lin]. Qed.
Lemma word_ext : forall w f g s, (forall t, length t = length s -> f t = g t) -> word w f s = word w g s.
Proof.
  induction w as [|x w IH]; intros f g s H; simpl; [unfold oid; auto|]. unfold ocomp. apply letter_ext.
  intros t Ht. apply IH. intros u Hu. apply H. congruence.
Qed.
Lemma word_lin : forall w c f s, word w (fun t => c * f t) s = c * word w f s.
Proof.
  induction w as [|x w IH]; intros c f s; simpl; [reflexivity|]. unfold ocomp.
  rewrite (letter_ext x _ (fun t => c * word w f t)) by (intros; apply IH). apply letter_lin.
Qed.
Lemma word_app : forall w w' f s, word (w ++ w') f s = word w (word w' f) s.
Proof.
  induction w as [|x w IH]; intros w' f s; simpl; auto. unfold ocomp. apply letter_ext. intros; apply IH.
Qed.

(** moving the first-acting letter onto the basis vector *)
Lemma mel_snoc : forall w b i t s, length t = length s -> (i < length s)%nat ->
  mel (word (w ++ [(b, i)])) t s =
  if Bool.eqb (occ_at i s) b then 0 else jw i s * mel (word w) t (put i b s).
Proof.
  intros w b i t s HL Hi. unfold mel. rewrite word_app.
  rewrite (word_ext w _ (fun u => (if Bool.eqb (occ_at i s) b then 0 else jw i s) * basis (put i b s) u)).
  - rewrite word_lin. destruct (Bool.eqb (occ_at i s) b); ring.
  - intros u Hu. simpl. unfold ocomp, oid, letter. simpl. destruct b.
    + rewrite cre_basis by congruence. destruct (occ_at i s); simpl; ring.
    + rewrite ann_basis by congruence. destruct (occ_at i s); simpl; ring.
Qed.

(** reading the last-acting letter off the amplitude *)
Lemma mel_cons : forall w b i t s,
  mel (word ((b, i) :: w)) t s =
  if Bool.eqb (occ_at i t) b then jw i t * mel (word w) (put i (negb b) t) s else 0.
Proof.
  intros w b i t s. unfold mel. simpl. unfold ocomp, letter. simpl.
  destruct b; unfold cre, ann; destruct (occ_at i t); reflexivity.
Qed.

Theorem word_adjoint : forall w s t, length t = length s -> (forall b i, In (b, i) w -> (i < length s)%nat) ->
  mel (word w) t s = mel (word (wadj w)) s t.
Proof.
  induction w as [|[b i] w IH]; intros s t HL Hw.
  - unfold mel. simpl. unfold oid. apply basis_sym.
  - rewrite mel_cons. unfold wadj. simpl. rewrite mel_snoc; [|congruence|rewrite HL; eapply Hw; simpl; eauto].
    fold (wadj w). rewrite IH.
    + destruct b, (occ_at i t); reflexivity.
    + rewrite put_length; auto.
    + intros b' i' H. eapply Hw. simpl. eauto.
Qed.

(** words conserve the number of electrons up to (creations - annihilations) *)
Definition wcharge (w : list (bool * nat)) : Z :=
  fold_right (fun (x : bool * nat) (a : Z) => if fst x then Z.succ a else Z.pred a) 0%Z w.
Lemma word_charge : forall w s t, length t = length s -> (forall b i, In (b, i) w -> (i < length s)%nat) ->
  (Z.of_nat (ones t) <> Z.of_nat (ones s) + wcharge w)%Z -> mel (word w) t s = 0.
Proof.
  induction w as [|[b i] w IH]; intros s t HL Hw Hne.
  - unfold mel. simpl in *. unfold oid. apply basis_neq. intros ->. apply Hne. lia.
  - rewrite mel_cons. assert (Hi : (i < length t)%nat) by (rewrite HL; eapply Hw; simpl; eauto).
    destruct (Bool.eqb (occ_at i t) b) eqn:E; auto. apply Bool.eqb_prop in E. rewrite IH; [ring| | |].
    + now rewrite put_length.
    + intros b' i' H. eapply Hw. simpl; eauto.
    + simpl in Hne. destruct b; simpl in *.
      * pose proof (ones_put_false i t Hi E). lia.
      * pose proof (ones_put_true i t Hi E). lia.
Qed.
End Fock.
Arguments occ_at i s : simpl never.
Arguments put i b s : simpl never.

(** Non-vacuity: d_1 on |111> gives -|101>. *)
Example ann_example : mel ZRing (ann ZRing 1) [true; false; true] [true; true; true] = (-1)%Z.
Proof. reflexivity. Qed.
