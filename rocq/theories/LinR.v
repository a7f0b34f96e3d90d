(** Finite-dimensional linear algebra over the reals, as far as needed for the multiplets (C53): sums, a homogeneous
    system with more unknowns than equations has a non-zero solution, orthonormal families and bases. *)
From Coq Require Import Reals Lra Lia Arith List Bool.
Open Scope R_scope.

Fixpoint sumR (n : nat) (f : nat -> R) : R := match n with O => 0 | S m => sumR m f + f m end.

Lemma sumR_ext : forall n f g, (forall i, (i < n)%nat -> f i = g i) -> sumR n f = sumR n g.
Proof. induction n; simpl; intros f g H; auto. rewrite (IHn f g); auto. rewrite H; auto. Qed.
Lemma sumR_0 : forall n f, (forall i, (i < n)%nat -> f i = 0) -> sumR n f = 0.
Proof. induction n; simpl; intros f H; auto. rewrite IHn, H; auto; lra. Qed.
Lemma sumR_plus : forall n f g, sumR n (fun i => f i + g i) = sumR n f + sumR n g.
Proof. induction n; simpl; intros; [lra|]. rewrite IHn. lra. Qed.
Lemma sumR_minus : forall n f g, sumR n (fun i => f i - g i) = sumR n f - sumR n g.
Proof. induction n; simpl; intros; [lra|]. rewrite IHn. lra. Qed.
Lemma sumR_mul_l : forall n c f, sumR n (fun i => c * f i) = c * sumR n f.
Proof. induction n; simpl; intros; [lra|]. rewrite IHn. lra. Qed.
Lemma sumR_mul_r : forall n c f, sumR n (fun i => f i * c) = sumR n f * c.
Proof. induction n; simpl; intros; [lra|]. rewrite IHn. lra. Qed.
Lemma sumR_swap : forall n m f, sumR n (fun i => sumR m (fun j => f i j)) = sumR m (fun j => sumR n (fun i => f i j)).
Proof.
  induction n; simpl; intros m f.
  - symmetry. apply sumR_0. auto.
  - rewrite IHn, <- sumR_plus. apply sumR_ext. auto.
Qed.
Lemma sumR_single : forall n f k, (k < n)%nat -> (forall i, (i < n)%nat -> i <> k -> f i = 0) -> sumR n f = f k.
Proof.
  induction n; simpl; intros f k Hk H; [lia|]. destruct (Nat.eq_dec k n) as [->|Hne].
  - rewrite sumR_0; [lra|]. intros i Hi. apply H; lia.
  - rewrite (IHn f k) by (try lia; intros; apply H; lia). rewrite (H n); lra || lia.
Qed.
Lemma sumR_delta : forall n k f, (k < n)%nat -> sumR n (fun i => (if Nat.eqb i k then 1 else 0) * f i) = f k.
Proof.
  intros n k f Hk. rewrite (sumR_single _ _ k Hk).
  - rewrite Nat.eqb_refl. lra.
  - intros i _ Hne. apply Nat.eqb_neq in Hne. rewrite Hne. lra.
Qed.
Lemma sumR_nonneg : forall n f, (forall i, (i < n)%nat -> 0 <= f i) -> 0 <= sumR n f.
Proof. induction n; simpl; intros f H; [lra|]. assert (0 <= sumR n f) by (apply IHn; auto). assert (0 <= f n) by auto. lra. Qed.
Lemma sumR_zero_terms : forall n f, (forall i, (i < n)%nat -> 0 <= f i) -> sumR n f = 0 -> forall i, (i < n)%nat -> f i = 0.
Proof.
  induction n; simpl; intros f H E i Hi; [lia|].
  assert (A : 0 <= sumR n f) by (apply sumR_nonneg; auto). assert (B : 0 <= f n) by auto.
  destruct (Nat.eq_dec i n) as [->|]; [lra|]. apply (IHn f); auto; [lra|lia].
Qed.

Definition ip (d : nat) (u v : nat -> R) : R := sumR d (fun i => u i * v i).
Definition delta (i j : nat) : R := if Nat.eqb i j then 1 else 0.
Definition nonzero (d : nat) (u : nat -> R) : Prop := exists i, (i < d)%nat /\ u i <> 0.
Lemma ip_sym : forall d u v, ip d u v = ip d v u.
Proof. intros. apply sumR_ext. intros. lra. Qed.
Lemma ip_self : forall d u, 0 <= ip d u u.
Proof. intros. apply sumR_nonneg. intros. nra. Qed.
Lemma ip_zero : forall d u, ip d u u = 0 -> forall i, (i < d)%nat -> u i = 0.
Proof.
  intros d u E i Hi. assert (u i * u i = 0).
  { apply (sumR_zero_terms d (fun i => u i * u i)); auto. intros. nra. }
  nra.
Qed.
Lemma nonzero_dec : forall d u, nonzero d u \/ (forall i, (i < d)%nat -> u i = 0).
Proof.
  induction d; intros u; [right; intros; lia|]. destruct (Req_dec (u d) 0) as [E|E].
  - destruct (IHd u) as [(i & Hi & N)|Z].
    + left. exists i. split; [lia|auto].
    + right. intros i Hi. destruct (Nat.eq_dec i d) as [->|]; auto. apply Z. lia.
  - left. exists d. auto.
Qed.

(** fewer equations than unknowns *)
Theorem hom_system : forall w d (A : nat -> nat -> R), (w < d)%nat ->
  exists x, nonzero d x /\ forall i, (i < w)%nat -> sumR d (fun j => A i j * x j) = 0.
Proof.
  induction w; intros d A H.
  - exists (fun _ => 1). split; [exists O; split; [lia|lra]|]. intros; lia.
  - (* equation w has a non-zero coefficient, or can be dropped *)
    destruct (nonzero_dec d (A w)) as [(p & Hp & N)|Z].
    + (* substitute x_p := - (sum_{j<>p} A w j x_j) / A w p; unknown k of the reduced system is k or k+1 *)
      pose (sk := fun k => if Nat.ltb k p then k else S k).
      assert (SK : forall k, (k < d - 1)%nat -> (sk k < d /\ sk k <> p)%nat).
      { intros k Hk. unfold sk. destruct (Nat.ltb_spec k p); lia. }
      assert (SUM : forall f, sumR d f = f p + sumR (d - 1) (fun k => f (sk k))).
      { intros f. clear -Hp. revert p Hp sk. induction d; intros p Hp sk; [lia|]. replace (S d - 1)%nat with d by lia. simpl.
        destruct (Nat.eq_dec p d) as [->|Hne].
        - rewrite Rplus_comm. f_equal. apply sumR_ext. intros i Hi. unfold sk. rewrite (proj2 (Nat.ltb_lt i d)) by auto. auto.
        - rewrite (IHd p) by lia. destruct d as [|d']; [lia|]. replace (S d' - 1)%nat with d' by lia. simpl.
          assert (E : sk d' = S d') by (unfold sk; rewrite (proj2 (Nat.ltb_ge d' p)) by lia; auto). rewrite E. unfold sk. lra. }
      destruct (IHw (d - 1)%nat (fun i k => A i (sk k) - A i p * (A w (sk k) / A w p))) as (y & (k0 & Hk0 & Ny) & Hy); [lia|].
      pose (xp := - sumR (d - 1) (fun k => A w (sk k) / A w p * y k)).
      pose (x := fun j => if Nat.eqb j p then xp else y (if Nat.ltb j p then j else (j - 1)%nat)).
      assert (XS : forall k, (k < d - 1)%nat -> x (sk k) = y k).
      { intros k Hk. unfold x. destruct (SK k Hk) as [_ Hne]. rewrite (proj2 (Nat.eqb_neq _ _) Hne). f_equal. unfold sk.
        destruct (Nat.ltb_spec k p) as [L|L].
        - now rewrite (proj2 (Nat.ltb_lt k p) L).
        - rewrite (proj2 (Nat.ltb_ge (S k) p)) by lia. lia. }
      assert (XP : x p = xp) by (unfold x; now rewrite Nat.eqb_refl).
      exists x. split.
      * exists (sk k0). split; [apply SK; auto|]. now rewrite XS.
      * intros i Hi. rewrite SUM, XP.
        assert (E : sumR (d - 1) (fun k => A i (sk k) * x (sk k)) =
                    sumR (d - 1) (fun k => (A i (sk k) - A i p * (A w (sk k) / A w p)) * y k) - A i p * xp).
        { unfold xp. rewrite Ropp_mult_distr_r_reverse, <- sumR_mul_l. unfold Rminus. rewrite Ropp_involutive.
          rewrite <- sumR_plus. apply sumR_ext. intros k Hk. rewrite XS by auto. ring. }
        rewrite E. destruct (Nat.eq_dec i w) as [->|Hne].
        -- rewrite (sumR_0 (d - 1)); [ring|]. intros k Hk. field. auto.
        -- rewrite Hy by lia. ring.
    + destruct (IHw d A) as (x & Nx & Hx); [lia|]. exists x. split; auto. intros i Hi.
      destruct (Nat.eq_dec i w) as [->|]; [|apply Hx; lia]. apply sumR_0. intros j Hj. rewrite Z by auto. lra.
Qed.

(** [v j] for j < w: an orthonormal family in R^d *)
Definition orthonormal (d w : nat) (v : nat -> nat -> R) : Prop :=
  forall i j, (i < w)%nat -> (j < w)%nat -> ip d (v i) (v j) = delta i j.

Theorem orthonormal_le : forall d w v, orthonormal d w v -> (w <= d)%nat.
Proof.
  intros d w v O. destruct (Nat.le_gt_cases w d) as [|H]; auto. exfalso.
  destruct (hom_system d w (fun i j => v j i) H) as (x & (k & Hk & N) & E).
  assert (Q : sumR w (fun j => sumR w (fun j' => x j * x j' * ip d (v j) (v j'))) = 0).
  { rewrite (sumR_ext w _ (fun j => sumR w (fun j' => sumR d (fun i => (v j i * x j) * (v j' i * x j'))))).
    - rewrite (sumR_ext w _ (fun j => sumR d (fun i => (v j i * x j) * sumR w (fun j' => v j' i * x j')))).
      + rewrite sumR_swap. apply sumR_0. intros i Hi. rewrite sumR_mul_r, E by auto. lra.
      + intros j _. rewrite sumR_swap. apply sumR_ext. intros i _. now rewrite sumR_mul_l.
    - intros j _. apply sumR_ext. intros j' _. unfold ip. rewrite <- sumR_mul_l. apply sumR_ext. intros. ring. }
  assert (P : sumR w (fun j => x j * x j) = 0).
  { rewrite <- Q. apply sumR_ext. intros j Hj. rewrite (sumR_single w _ j Hj).
    - rewrite O by auto. unfold delta. rewrite Nat.eqb_refl. lra.
    - intros j' Hj' Hne. rewrite O by auto. unfold delta. rewrite (proj2 (Nat.eqb_neq j j')) by auto. lra. }
  apply N. pose proof (sumR_zero_terms w (fun j => x j * x j) ltac:(intros; nra) P k Hk). nra.
Qed.

(** a full orthonormal family is complete *)
Theorem complete_zero : forall d v u, orthonormal d d v -> (forall j, (j < d)%nat -> ip d (v j) u = 0) ->
  forall i, (i < d)%nat -> u i = 0.
Proof.
  intros d v u O H. apply ip_zero. destruct (Req_dec (ip d u u) 0) as [|N]; auto. exfalso.
  pose proof (ip_self d u) as P. pose (r := sqrt (ip d u u)).
  assert (R2 : r * r = ip d u u) by (apply sqrt_sqrt; auto). assert (R0 : r <> 0) by (intros E; rewrite E in R2; lra).
  pose (v' := fun j => if Nat.eqb j d then (fun i => u i / r) else v j).
  assert (O' : orthonormal d (S d) v').
  { assert (A : forall j, (j < d)%nat -> ip d (v j) (fun i => u i / r) = 0).
    { intros j Hj. unfold ip. rewrite (sumR_ext d _ (fun i => (v j i * u i) * / r)) by (intros; unfold Rdiv; ring).
      rewrite sumR_mul_r. fold (ip d (v j) u). rewrite H by auto. ring. }
    assert (B : ip d (fun i => u i / r) (fun i => u i / r) = 1).
    { unfold ip. rewrite (sumR_ext d _ (fun i => (u i * u i) * (/ r * / r))) by (intros; unfold Rdiv; ring).
      rewrite sumR_mul_r. fold (ip d u u). rewrite <- R2. field. auto. }
    intros i j Hi Hj. unfold v'. destruct (Nat.eqb_spec i d) as [->|Ni], (Nat.eqb_spec j d) as [->|Nj].
    - rewrite B. unfold delta. now rewrite Nat.eqb_refl.
    - rewrite ip_sym, A by lia. unfold delta. now rewrite (proj2 (Nat.eqb_neq d j)) by lia.
    - rewrite A by lia. unfold delta. now rewrite (proj2 (Nat.eqb_neq i d)) by lia.
    - apply O; lia. }
  apply orthonormal_le in O'. lia.
Qed.
Theorem resolution : forall d v, orthonormal d d v -> forall p q, (p < d)%nat -> (q < d)%nat ->
  sumR d (fun j => v j p * v j q) = delta p q.
Proof.
  intros d v O p q Hp Hq.
  assert (Z : (fun i => delta i q - sumR d (fun j => v j i * v j q)) p = 0).
  { apply (complete_zero d v (fun i => delta i q - sumR d (fun j => v j i * v j q)) O); auto. intros j Hj. unfold ip.
    rewrite (sumR_ext d _ (fun i => (if Nat.eqb i q then 1 else 0) * v j i - sumR d (fun k => v k q * (v j i * v k i)))).
    - rewrite sumR_minus, sumR_delta by auto. rewrite sumR_swap.
      rewrite (sumR_ext d _ (fun k => v k q * ip d (v j) (v k))) by (intros; now rewrite sumR_mul_l).
      rewrite (sumR_single d _ j Hj).
      + rewrite O by auto. unfold delta. rewrite Nat.eqb_refl. lra.
      + intros k Hk Hne. rewrite O by auto. unfold delta. rewrite (proj2 (Nat.eqb_neq j k)) by auto. lra.
    - intros i Hi. unfold delta. rewrite Rmult_minus_distr_l, <- sumR_mul_l. f_equal; [ring|]. apply sumR_ext. intros. ring. }
  cbv beta in Z. unfold delta in *. lra.
Qed.
