(** Finite matrices of rates: off-diagonal entries are not negative and every column adds up to zero.  Used for the
    stationary states of the Pauli approach (C69) and the second law (C70). *)
From Coq Require Import List Arith Lia ZArith Bool Ring Reals Lra.
From Verif Require Import CRing SpecFunc PropRates.
Import ListNotations.
Open Scope R_scope.

(** ** Definitions *)
Definition sumR (n : nat) (f : nat -> R) : R := rsum (f : nat -> RRing) (seq 0 n).
(** W i j is the rate from j to i *)
Definition rate_matrix (n : nat) (W : nat -> nat -> R) : Prop :=
  (forall i j, (i < n)%nat -> (j < n)%nat -> i <> j -> 0 <= W i j) /\ (forall j, (j < n)%nat -> sumR n (fun i => W i j) = 0).
Definition steady (n : nat) (W : nat -> nat -> R) (p : nat -> R) : Prop :=
  forall i, (i < n)%nat -> sumR n (fun j => W i j * p j) = 0.
(** [j] leads to [i] by a chain of rates that are not zero *)
Inductive leads_to (n : nat) (W : nat -> nat -> R) : nat -> nat -> Prop :=
| lead_refl : forall i, (i < n)%nat -> leads_to n W i i
| lead_step : forall i j k, leads_to n W i j -> (k < n)%nat -> k <> j -> W k j <> 0 -> leads_to n W i k.
Definition connected (n : nat) (W : nat -> nat -> R) : Prop := forall i j, (i < n)%nat -> (j < n)%nat -> leads_to n W i j.

(** ** Sums *)
Lemma sumR_S : forall n f, sumR (S n) f = sumR n f + f n.
Proof. intros n f. unfold sumR. rewrite seq_S, (rsum_app RRing). cbn [rsum plus]. rsimp. ring. Qed.
Lemma sumR_0 : forall f, sumR 0 f = 0.
Proof. reflexivity. Qed.
Lemma sumR_ext : forall n f g, (forall i, (i < n)%nat -> f i = g i) -> sumR n f = sumR n g.
Proof. intros n f g H. apply (rsum_ext RRing). intros i Hi. apply in_seq in Hi. apply H. lia. Qed.
Lemma sumR_plus : forall n f g, sumR n (fun i => f i + g i) = sumR n f + sumR n g.
Proof. induction n; intros; [rewrite !sumR_0; ring|]. rewrite !sumR_S, IHn. ring. Qed.
Lemma sumR_scal : forall n c f, sumR n (fun i => c * f i) = c * sumR n f.
Proof. induction n; intros; [rewrite !sumR_0; ring|]. rewrite !sumR_S, IHn. ring. Qed.
Lemma sumR_minus : forall n f g, sumR n (fun i => f i - g i) = sumR n f - sumR n g.
Proof. induction n; intros; [rewrite !sumR_0; ring|]. rewrite !sumR_S, IHn. ring. Qed.
Lemma sumR_zero : forall n f, (forall i, (i < n)%nat -> f i = 0) -> sumR n f = 0.
Proof. induction n; intros f H; [reflexivity|]. rewrite sumR_S, IHn, H; auto; lra. Qed.
Lemma sumR_nonneg : forall n f, (forall i, (i < n)%nat -> 0 <= f i) -> 0 <= sumR n f.
Proof. induction n; intros f H; [rewrite sumR_0; lra|]. rewrite sumR_S. specialize (IHn f). assert (0 <= f n) by (apply H; lia). assert (0 <= sumR n f) by (apply IHn; auto). lra. Qed.
Lemma sumR_term : forall n f k, (forall i, (i < n)%nat -> 0 <= f i) -> (k < n)%nat -> f k <= sumR n f.
Proof.
  induction n; intros f k H Hk; [lia|]. rewrite sumR_S. assert (0 <= f n) by (apply H; lia). destruct (Nat.eq_dec k n) as [->|].
  - assert (0 <= sumR n f) by (apply sumR_nonneg; auto). lra.
  - assert (f k <= sumR n f) by (apply IHn; auto; lia). lra.
Qed.
Lemma sumR_nonneg_0 : forall n f, (forall i, (i < n)%nat -> 0 <= f i) -> sumR n f = 0 -> forall i, (i < n)%nat -> f i = 0.
Proof. intros n f H S i Hi. pose proof (sumR_term n f i H Hi). specialize (H i Hi). lra. Qed.
Lemma sumR_swap : forall n m f, sumR n (fun i => sumR m (fun j => f i j)) = sumR m (fun j => sumR n (fun i => f i j)).
Proof. intros n m f. unfold sumR. apply (rsum_swap RRing). Qed.
Lemma sumR_abs : forall n f, Rabs (sumR n f) <= sumR n (fun i => Rabs (f i)).
Proof. intros n f. apply rsum_abs. Qed.
Lemma sumR_split : forall n f k, (k < n)%nat -> sumR n f = f k + sumR n (fun i => if Nat.eq_dec i k then 0 else f i).
Proof.
  induction n; intros f k Hk; [lia|]. rewrite !sumR_S. destruct (Nat.eq_dec k n) as [->|].
  - destruct (Nat.eq_dec n n); [|lia]. rewrite (sumR_ext n (fun i => if Nat.eq_dec i n then 0 else f i) f); [ring|].
    intros i Hi. destruct (Nat.eq_dec i n); [lia|auto].
  - rewrite (IHn f k) by lia. destruct (Nat.eq_dec n k); [lia|]. ring.
Qed.

(** ** Stationary vectors *)
Section Rates.
Variables (n : nat) (W : nat -> nat -> R).
Hypothesis RM : rate_matrix n W.

Lemma diag_rate : forall i, (i < n)%nat -> W i i <= 0.
Proof.
  intros i Hi. destruct RM as (P & Z). specialize (Z i Hi). rewrite (sumR_split n _ i Hi) in Z.
  assert (0 <= sumR n (fun k => if Nat.eq_dec k i then 0 else W k i)).
  { apply sumR_nonneg. intros k Hk. destruct (Nat.eq_dec k i); [lra|auto]. }
  lra.
Qed.
Lemma sum_rows : forall p, sumR n (fun i => sumR n (fun j => W i j * p j)) = 0.
Proof.
  intros p. rewrite sumR_swap. apply sumR_zero. intros j Hj.
  rewrite (sumR_ext n _ (fun i => p j * W i j)) by (intros; ring). rewrite sumR_scal. destruct RM as (_ & Z). rewrite Z by auto. ring.
Qed.
(** the absolute values of a stationary vector are stationary *)
Lemma steady_abs : forall p, steady n W p -> steady n W (fun i => Rabs (p i)).
Proof.
  intros p S. unfold steady. refine (sumR_nonneg_0 n (fun i => sumR n (fun j => W i j * Rabs (p j))) _ (sum_rows _)).
  intros i Hi. specialize (S i Hi). rewrite (sumR_split n _ i Hi) in S. rewrite (sumR_split n _ i Hi).
  set (r := sumR n (fun j => if Nat.eq_dec j i then 0 else W i j * p j)) in *.
  assert (A : Rabs r <= sumR n (fun j => if Nat.eq_dec j i then 0 else W i j * Rabs (p j))).
  { unfold r. eapply Rle_trans; [apply sumR_abs|]. apply Req_le. apply sumR_ext. intros j Hj. destruct (Nat.eq_dec j i); [apply Rabs_R0|].
    rewrite Rabs_mult. f_equal. apply Rabs_right. apply Rle_ge. apply RM; auto. }
  assert (B : W i i * Rabs (p i) = - Rabs r).
  { replace r with (- (W i i * p i)) by lra. rewrite Rabs_Ropp, Rabs_mult, (Rabs_left1 (W i i)) by now apply diag_rate. ring. }
  lra.
Qed.
Lemma steady_lin : forall a b p q, steady n W p -> steady n W q -> steady n W (fun i => a * p i + b * q i).
Proof.
  intros a b p q P Q i Hi. rewrite (sumR_ext n _ (fun j => a * (W i j * p j) + b * (W i j * q j))) by (intros; ring).
  rewrite sumR_plus, !sumR_scal, P, Q by auto. ring.
Qed.
(** rates out of an occupied state lead to occupied states *)
Lemma steady_spread : forall p, (forall i, (i < n)%nat -> 0 <= p i) -> steady n W p ->
  forall i j, leads_to n W i j -> 0 < p i -> 0 < p j.
Proof.
  intros p P S i j H. induction H as [i Hi|i j k H IH Hk Hne Hw]; auto. intros Hp. specialize (IH Hp).
  assert (Hj : (j < n)%nat) by (inversion H; auto).
  destruct (Rle_lt_or_eq_dec 0 (p k) (P k Hk)) as [|E]; auto. exfalso.
  specialize (S k Hk). rewrite (sumR_split n _ k Hk), <- E in S.
  assert (X : W k j * p j <= sumR n (fun i0 => if Nat.eq_dec i0 k then 0 else W k i0 * p i0)).
  { eapply Rle_trans; [|apply (sumR_term n _ j)]; auto.
    - cbv beta. destruct (Nat.eq_dec j k); [congruence|lra].
    - intros m Hm. cbv beta. destruct (Nat.eq_dec m k); [lra|]. apply Rmult_le_pos; auto. apply RM; auto. }
  assert (0 < W k j). { destruct RM as (Q & _). specialize (Q k j Hk Hj Hne). lra. }
  assert (0 < W k j * p j) by now apply Rmult_lt_0_compat. lra.
Qed.
(** if the normalised stationary vector is unique, it is a probability distribution *)
Lemma unique_nonneg : forall p, steady n W p -> sumR n p = 1 ->
  (forall q, steady n W q -> sumR n q = 1 -> forall i, (i < n)%nat -> q i = p i) ->
  forall i, (i < n)%nat -> 0 <= p i <= 1.
Proof.
  intros p S N U. set (s := sumR n (fun i => Rabs (p i))).
  assert (S1 : 1 <= s). { rewrite <- N. unfold s. eapply Rle_trans; [apply Rle_abs|apply sumR_abs]. }
  assert (P : forall i, (i < n)%nat -> 0 <= p i).
  { intros i Hi. rewrite <- (U (fun i => / s * Rabs (p i))); auto.
    - apply Rmult_le_pos; [left; apply Rinv_0_lt_compat; lra|apply Rabs_pos].
    - intros k Hk. rewrite (sumR_ext n _ (fun j => / s * (W k j * Rabs (p j)))) by (intros; ring).
      rewrite sumR_scal, (steady_abs p S k Hk). ring.
    - rewrite sumR_scal. fold s. field. lra. }
  intros i Hi. split; [now apply P|]. rewrite <- N. now apply sumR_term.
Qed.
(** connected states: the normalised stationary vector is unique and positive *)
Lemma connected_pos : connected n W -> forall p, (forall i, (i < n)%nat -> 0 <= p i) -> steady n W p -> 0 < sumR n p ->
  forall i, (i < n)%nat -> 0 < p i.
Proof.
  intros C p P S Z i Hi.
  assert (X : exists j, (j < n)%nat /\ 0 < p j).
  { assert (Y : forall k, (k <= n)%nat -> 0 < sumR k p -> exists j, (j < n)%nat /\ 0 < p j).
    { induction k; intros Hk Hs; [rewrite sumR_0 in Hs; lra|]. rewrite sumR_S in Hs. destruct (Rlt_dec 0 (p k)); [exists k; auto|].
      apply IHk; [lia|lra]. }
    apply (Y n); auto. }
  destruct X as (j & Hj & Hp). apply (steady_spread p P S j i); auto.
Qed.
Lemma connected_unique : connected n W -> forall p q, steady n W p -> steady n W q -> sumR n p = 1 -> sumR n q = 1 ->
  forall i, (i < n)%nat -> p i = q i.
Proof.
  intros C p q P Q NP NQ.
  set (d := fun i => p i - q i).
  assert (SD : steady n W d).
  { intros i Hi. rewrite (sumR_ext n _ (fun j => W i j * p j - W i j * q j)) by (intros; unfold d; ring). rewrite sumR_minus, P, Q by auto. ring. }
  assert (ZD : sumR n d = 0) by (unfold d; rewrite sumR_minus; lra).
  set (s := sumR n (fun i => Rabs (d i))).
  assert (S0 : 0 <= s) by (apply sumR_nonneg; intros; apply Rabs_pos).
  destruct (Rle_lt_or_eq_dec 0 s S0) as [Sp|S1].
  - assert (A : forall e, e = 1 \/ e = -1 -> forall i, (i < n)%nat -> 0 < Rabs (d i) + e * d i).
    { intros e He. apply (connected_pos C).
      - intros i Hi. unfold Rabs. destruct He as [-> | ->]; destruct (Rcase_abs (d i)); lra.
      - intros i Hi. rewrite (sumR_ext n _ (fun j => W i j * (1 * Rabs (d j) + e * d j))) by (intros; ring).
        now apply (steady_lin 1 e _ _ (steady_abs d SD) SD).
      - rewrite sumR_plus, sumR_scal, ZD. fold s. lra. }
    intros i Hi. pose proof (A 1 (or_introl eq_refl) i Hi). pose proof (A (-1) (or_intror eq_refl) i Hi).
    exfalso. unfold Rabs in *. destruct (Rcase_abs (d i)); lra.
  - intros i Hi. assert (X : Rabs (d i) = 0).
    { apply (sumR_nonneg_0 n (fun i => Rabs (d i))); auto. intros; apply Rabs_pos. }
    unfold d in X. unfold Rabs in X. destruct (Rcase_abs _); lra.
Qed.
End Rates.

(** a stationary probability distribution exists: eliminate one state after the other *)
Lemma steady_exists : forall n W, (0 < n)%nat -> rate_matrix n W ->
  exists p, steady n W p /\ sumR n p = 1 /\ forall i, (i < n)%nat -> 0 <= p i.
Proof.
  induction n as [|n IH]; intros W Hn RM; [lia|]. pose proof (diag_rate (S n) W RM n ltac:(lia)) as D.
  destruct (Rle_lt_or_eq_dec _ _ D) as [Dn|D0].
  - destruct (Nat.eq_dec n 0) as [->|N0].
    { destruct RM as (_ & Z). specialize (Z 0%nat ltac:(lia)). rewrite sumR_S, sumR_0 in Z. lra. }
    set (w := / (- W n n)). assert (Hw : 0 < w) by (apply Rinv_0_lt_compat; lra). assert (Hw1 : w * W n n = -1) by (unfold w; field; lra).
    set (V := fun i j => W i j + w * (W i n * W n j)).
    destruct RM as (P & Z).
    assert (RV : rate_matrix n V).
    { split.
      - intros i j Hi Hj Hne. unfold V. assert (0 <= W i j) by (apply P; lia). assert (0 <= W i n) by (apply P; lia). assert (0 <= W n j) by (apply P; lia).
        assert (0 <= W i n * W n j) by now apply Rmult_le_pos. assert (0 <= w * (W i n * W n j)) by (apply Rmult_le_pos; lra). lra.
      - intros j Hj. unfold V. rewrite sumR_plus, sumR_scal.
        rewrite (sumR_ext n (fun i => W i n * W n j) (fun i => W n j * W i n)) by (intros; ring). rewrite sumR_scal.
        pose proof (Z j ltac:(lia)) as Z1. pose proof (Z n ltac:(lia)) as Z2. rewrite sumR_S in Z1, Z2.
        replace (sumR n (fun i => W i j)) with (- W n j) by lra. replace (sumR n (fun i => W i n)) with (- W n n) by lra.
        replace (- W n j + w * (W n j * - W n n)) with (- W n j - (w * W n n) * W n j) by ring. rewrite Hw1. ring. }
    destruct (IH V ltac:(lia) RV) as (p & Sp & Np & Pp).
    set (x := w * sumR n (fun j => W n j * p j)). set (q := fun i => if Nat.eq_dec i n then x else p i).
    assert (X0 : 0 <= x).
    { apply Rmult_le_pos; [lra|]. apply sumR_nonneg. intros j Hj. apply Rmult_le_pos; [apply P; lia|auto]. }
    assert (Sq : steady (S n) W q).
    { intros i Hi. rewrite sumR_S. unfold q at 2. destruct (Nat.eq_dec n n); [|lia].
      rewrite (sumR_ext n _ (fun j => W i j * p j)) by (intros j Hj; unfold q; destruct (Nat.eq_dec j n); [lia|auto]).
      destruct (Nat.eq_dec i n) as [->|Hne].
      - unfold x. replace (W n n * (w * sumR n (fun j => W n j * p j))) with ((w * W n n) * sumR n (fun j => W n j * p j)) by ring. rewrite Hw1. ring.
      - specialize (Sp i ltac:(lia)). unfold V in Sp.
        rewrite (sumR_ext n _ (fun j => W i j * p j + (w * W i n) * (W n j * p j))) in Sp by (intros; ring). rewrite sumR_plus, sumR_scal in Sp.
        unfold x. lra. }
    assert (SQ : sumR (S n) q = 1 + x).
    { rewrite sumR_S. rewrite (sumR_ext n q p) by (intros j Hj; unfold q; destruct (Nat.eq_dec j n); [lia|auto]). unfold q.
      destruct (Nat.eq_dec n n); [|lia]. lra. }
    exists (fun i => / (1 + x) * q i). split; [|split].
    + intros i Hi. rewrite (sumR_ext (S n) _ (fun j => / (1 + x) * (W i j * q j))) by (intros; ring). rewrite sumR_scal, Sq by auto. ring.
    + rewrite sumR_scal, SQ. field. lra.
    + intros i Hi. apply Rmult_le_pos; [left; apply Rinv_0_lt_compat; lra|]. unfold q. destruct (Nat.eq_dec i n); auto. apply Pp. lia.
  - exists (fun i => if Nat.eq_dec i n then 1 else 0).
    assert (C : forall i, (i < S n)%nat -> W i n = 0).
    { destruct RM as (P & Z). specialize (Z n ltac:(lia)). intros i Hi. destruct (Nat.eq_dec i n) as [->|]; auto.
      apply (sumR_nonneg_0 (S n) (fun i => W i n)); auto. intros k Hk. destruct (Nat.eq_dec k n) as [->|]; [lra|]. apply P; lia. }
    split; [|split].
    + intros i Hi. apply sumR_zero. intros j Hj. destruct (Nat.eq_dec j n) as [->|]; [rewrite C by auto|]; ring.
    + rewrite sumR_S, sumR_zero; [destruct (Nat.eq_dec n n); [lra|lia]|]. intros i Hi. destruct (Nat.eq_dec i n); [lia|auto].
    + intros i Hi. destruct (Nat.eq_dec i n); lra.
Qed.
