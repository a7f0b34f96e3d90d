(** C64: the Ozaki expansion is the truncated continued fraction of tanh, with an explicit error bound. *)
From Coq Require Import Reals Lra Lia Arith List Bool.
From Verif Require Import LinR Ozaki.
Import ListNotations.
Local Open Scope R_scope.

(** * Specification *)
(** scipy.linalg.eigh_tridiagonal: orthonormal eigenvectors of the symmetric tridiagonal matrix with diagonal [d] and off-diagonal [e] *)
Definition eigensystem (d e : list R) (b : nat -> R) (v : nat -> nat -> R) : Prop :=
  let N := length d in
  orthonormal N N (fun i k => v k i) /\
  forall k i, (k < N)%nat -> (i < N)%nat ->
    nth k d 0 * v k i + (match k with O => 0 | S k' => nth k' e 0 * v k' i end) + nth k e 0 * v (S k) i = b i * v k i.
(** Lambert's continued fraction d + y^2/(d+2 + y^2/(d+4 + ...)) with m fraction bars, and y/(1 + y^2/(3 + ... + y^2/(2N-1))) *)
Fixpoint cfrac (y : R) (m : nat) (d : R) : R := match m with O => d | S k => d + y ^ 2 / cfrac y k (d + 2) end.
Definition lambert (N : nat) (y : R) : R := y / cfrac y (N - 1) 1.
(** 1 * 3 * ... * (2 n - 1) *)
Fixpoint odds (n : nat) : R := match n with O => 1 | S k => odds k * (2 * INR n - 1) end.
(** the expansion 4 x sum_p R_p / (x^2 + (1/b_p)^2) *)
Definition expansion (L : list (R * R)) (x : R) : R :=
  4 * x * fold_right Rplus 0 (map (fun br => snd br / (x ^ 2 + (1 / fst br) ^ 2)) L).

(** * tanh and its convergents *)
Fixpoint An (y : R) (n : nat) : R * R :=    (** numerators n and n+1 *)
  match n with O => (0, y) | S k => let a := An y k in (snd a, (2 * INR (S k) + 1) * snd a + y ^ 2 * fst a) end.
Fixpoint Bn (y : R) (n : nat) : R * R :=
  match n with O => (1, 1) | S k => let a := Bn y k in (snd a, (2 * INR (S k) + 1) * snd a + y ^ 2 * fst a) end.
(** y^(n+1) times the modified spherical Bessel functions *)
Fixpoint sn (y : R) (n : nat) : R * R :=
  match n with O => (sinh y, y * cosh y - sinh y) | S k => let a := sn y k in (snd a, y ^ 2 * fst a - (2 * INR (S k) + 1) * snd a) end.

Lemma sn_AB : forall y n, fst (sn y n) = (-1) ^ n * (fst (Bn y n) * sinh y - fst (An y n) * cosh y) /\
                          snd (sn y n) = (-1) ^ (S n) * (snd (Bn y n) * sinh y - snd (An y n) * cosh y).
Proof.
  intros y n. induction n as [|n [IH1 IH2]].
  - cbn [sn An Bn fst snd pow]. split; ring.
  - cbn [sn An Bn fst snd]. split; [exact IH2|]. rewrite IH1, IH2. cbn [pow]. ring.
Qed.

Lemma Bn_pos : forall y n, odds n <= fst (Bn y n) /\ odds (S n) <= snd (Bn y n) /\ 0 < odds n /\ 0 < odds (S n).
Proof.
  intros y n. induction n as [|n (I1 & I2 & I3 & I4)].
  - cbn [Bn odds fst snd INR]. lra.
  - cbn [Bn fst snd]. pose proof (pow2_ge_0 y) as Y. pose proof (pos_INR n) as P.
    assert (E : odds (S (S n)) = odds (S n) * (2 * INR (S n) + 1)).
    { change (odds (S (S n))) with (odds (S n) * (2 * INR (S (S n)) - 1)). rewrite !S_INR. ring. }
    assert (Q : 0 < 2 * INR (S n) + 1) by (rewrite S_INR; lra).
    split; [exact I2|]. split; [|split; [exact I4|rewrite E; apply Rmult_lt_0_compat; assumption]].
    rewrite E. assert (0 <= y ^ 2 * fst (Bn y n)) by (apply Rmult_le_pos; lra).
    assert (odds (S n) * (2 * INR (S n) + 1) <= (2 * INR (S n) + 1) * snd (Bn y n)).
    { rewrite Rmult_comm. apply Rmult_le_compat_l; lra. }
    lra.
Qed.

(** derivatives *)
Lemma deriv_ext : forall f g x l m, (forall t, f t = g t) -> l = m -> derivable_pt_lim f x l -> derivable_pt_lim g x m.
Proof. intros f g x l m E <- H eps He. destruct (H eps He) as (d & K). exists d. intros h Hh Hd. rewrite <- !E. auto. Qed.
Definition dfst (y : R) (n : nat) : R := match n with O => cosh y | S m => y * fst (sn y m) end.
Lemma sn_deriv : forall n, (forall y, derivable_pt_lim (fun t => fst (sn t n)) y (dfst y n)) /\
                           (forall y, derivable_pt_lim (fun t => snd (sn t n)) y (y * fst (sn y n))).
Proof.
  induction n as [|n [I1 I2]].
  - split; intros y; [apply derivable_pt_lim_sinh|]. cbn [sn fst snd].
    refine (deriv_ext (fun t => t * cosh t - sinh t) _ _ (1 * cosh y + y * sinh y - cosh y) _ _ _ _); [reflexivity|ring|].
    apply (derivable_pt_lim_minus (fun t => t * cosh t) sinh); [|apply derivable_pt_lim_sinh].
    apply (derivable_pt_lim_mult (fun t => t) cosh); [apply derivable_pt_lim_id|apply derivable_pt_lim_cosh].
  - split; intros y; [exact (I2 y)|]. cbn [sn fst snd].
    refine (deriv_ext (fun t => (t * t) * fst (sn t n) - (2 * INR (S n) + 1) * snd (sn t n)) _ _
      ((1 * y + y * 1) * fst (sn y n) + (y * y) * dfst y n - (2 * INR (S n) + 1) * (y * fst (sn y n))) _ _ _ _).
    + intros t. cbn [pow]. ring.
    + destruct n as [|m]; cbn [dfst sn fst snd].
      * cbn [INR]. ring.
      * rewrite !S_INR. ring.
    + apply (derivable_pt_lim_minus (fun t => (t * t) * fst (sn t n)) (fun t => (2 * INR (S n) + 1) * snd (sn t n))).
      * apply (derivable_pt_lim_mult (fun t => t * t) (fun t => fst (sn t n))); [|apply I1].
        apply (derivable_pt_lim_mult (fun t => t) (fun t => t)); apply derivable_pt_lim_id.
      * apply derivable_pt_lim_scal. apply I2.
Qed.
Lemma incr0 : forall f f' y, (forall t, derivable_pt_lim f t (f' t)) -> f 0 = 0 -> (forall t, 0 < t -> 0 < f' t) -> 0 < y -> 0 < f y.
Proof.
  intros f f' y H F0 P Y. destruct (MVT_cor2 f f' 0 y Y) as (t & E & T); [auto|]. rewrite F0 in E.
  assert (0 < f' t) by (apply P; lra). assert (0 < f' t * (y - 0)) by (apply Rmult_lt_0_compat; lra). lra.
Qed.
Lemma incr0_le : forall f f' y, (forall t, derivable_pt_lim f t (f' t)) -> f 0 = 0 -> (forall t, 0 < t -> 0 <= f' t) -> 0 < y -> 0 <= f y.
Proof.
  intros f f' y H F0 P Y. destruct (MVT_cor2 f f' 0 y Y) as (t & E & T); [auto|]. rewrite F0 in E.
  assert (0 <= f' t) by (apply P; lra). assert (0 <= f' t * (y - 0)) by (apply Rmult_le_pos; lra). lra.
Qed.
Lemma cosh_pos : forall y, 0 < cosh y.
Proof. intros y. unfold cosh. pose proof (exp_pos y). pose proof (exp_pos (- y)). lra. Qed.
Lemma sinh_pos : forall y, 0 < y -> 0 < sinh y.
Proof. intros y Y. unfold sinh. assert (exp (- y) < exp y) by (apply exp_increasing; lra). lra. Qed.
Lemma sn_0 : forall n, fst (sn 0 n) = 0 /\ snd (sn 0 n) = 0.
Proof.
  induction n as [|n [I1 I2]].
  - cbn [sn fst snd]. rewrite sinh_0. split; ring.
  - cbn [sn fst snd]. rewrite I1, I2. split; ring.
Qed.
Lemma sn_pos : forall n y, 0 < y -> 0 < fst (sn y n).
Proof.
  induction n as [|n IH]; intros y Y; [apply sinh_pos; auto|]. cbn [sn fst].
  apply (incr0 (fun t => snd (sn t n)) (fun t => t * fst (sn t n)) y); auto; [apply sn_deriv|apply sn_0|].
  intros t T. apply Rmult_lt_0_compat; auto.
Qed.
Lemma odds_pos : forall n, 0 < odds n.
Proof. intros n. exact (proj1 (proj2 (proj2 (Bn_pos 0 n)))). Qed.
Lemma sn_le : forall n y, 0 < y -> fst (sn y n) <= y ^ (2 * n + 1) / odds (S n) * cosh y.
Proof.
  induction n as [|n IH]; intros y Y.
  - pose proof (incr0_le (fun t => t * cosh t - sinh t) (fun t => t * sinh t) y) as Q.
    assert (0 <= y * cosh y - sinh y).
    { apply Q; auto.
      - intros t. apply (proj2 (sn_deriv 0) t).
      - rewrite sinh_0. ring.
      - intros t T. apply Rmult_le_pos; [lra|]. left. now apply sinh_pos. }
    cbn [sn fst odds INR Nat.mul Nat.add pow]. unfold Rdiv. replace (y * 1 * / (1 * (2 * 1 - 1)) * cosh y) with (y * cosh y) by field. lra.
  - set (k := (2 * S n + 1)%nat). pose proof (odds_pos (S n)) as O1. pose proof (odds_pos (S (S n))) as O2.
    assert (OE : odds (S (S n)) = odds (S n) * INR k).
    { change (odds (S (S n))) with (odds (S n) * (2 * INR (S (S n)) - 1)). f_equal. unfold k. rewrite plus_INR, mult_INR, !S_INR. cbn [INR]. ring. }
    assert (KP : 0 < INR k) by (apply lt_0_INR; unfold k; lia).
    pose proof (incr0_le (fun t => / odds (S (S n)) * (t ^ k * cosh t) - snd (sn t n))
      (fun t => / odds (S (S n)) * (INR k * t ^ pred k * cosh t + t ^ k * sinh t) - t * fst (sn t n)) y) as Q.
    assert (0 <= / odds (S (S n)) * (y ^ k * cosh y) - snd (sn y n)).
    { apply Q; auto.
      - intros t. apply (derivable_pt_lim_minus (fun t => / odds (S (S n)) * (t ^ k * cosh t)) (fun t => snd (sn t n))); [|apply sn_deriv].
        apply derivable_pt_lim_scal. apply (derivable_pt_lim_mult (fun t => t ^ k) cosh); [apply derivable_pt_lim_pow|apply derivable_pt_lim_cosh].
      - rewrite (proj2 (sn_0 n)). unfold k. rewrite pow_i by lia. ring.
      - intros t T. specialize (IH t T).
        assert (A : t * fst (sn t n) <= t * (t ^ (2 * n + 1) / odds (S n) * cosh t)) by (apply Rmult_le_compat_l; lra).
        assert (B : / odds (S (S n)) * (INR k * t ^ pred k * cosh t) = t * (t ^ (2 * n + 1) / odds (S n) * cosh t)).
        { rewrite OE. replace (pred k) with (S (2 * n + 1)) by (unfold k; lia). cbn [pow]. field. lra. }
        assert (C : 0 <= / odds (S (S n)) * (t ^ k * sinh t)).
        { apply Rmult_le_pos; [left; now apply Rinv_0_lt_compat|]. apply Rmult_le_pos; [apply pow_le; lra|left; now apply sinh_pos]. }
        rewrite Rmult_plus_distr_l. lra. }
    cbn [sn fst]. unfold Rdiv. replace (y ^ k * / odds (S (S n)) * cosh y) with (/ odds (S (S n)) * (y ^ k * cosh y)) by ring. lra.
Qed.

(** * convergents *)
Lemma cfrac_pos : forall y m d, 0 < d -> 0 < cfrac y m d.
Proof.
  intros y m. induction m as [|m IH]; intros d D; cbn [cfrac]; [auto|].
  assert (0 < cfrac y m (d + 2)) by (apply IH; lra). pose proof (pow2_ge_0 y).
  assert (0 <= y ^ 2 / cfrac y m (d + 2)) by (apply Rmult_le_pos; [auto|left; now apply Rinv_0_lt_compat]). lra.
Qed.
Lemma conv_ratio : forall y m n, let t := cfrac y m (2 * INR (S n) + 1) in
  (snd (An y n) * t + y ^ 2 * fst (An y n)) / (snd (Bn y n) * t + y ^ 2 * fst (Bn y n)) =
  snd (An y (S (n + m))) / snd (Bn y (S (n + m))).
Proof.
  intros y m. induction m as [|m IH]; intros n t.
  - unfold t. cbn [cfrac]. rewrite Nat.add_0_r. cbn [An Bn snd]. f_equal; [ring|f_equal; ring].
  - specialize (IH (S n)). cbv zeta in IH. replace (S (S n + m)) with (S (n + S m)) in IH by lia. rewrite <- IH. clear IH.
    pose proof (pos_INR n) as P. assert (T : 0 < cfrac y m (2 * INR (S n) + 1 + 2)) by (apply cfrac_pos; rewrite S_INR; lra).
    unfold t. cbn [cfrac]. replace (2 * INR (S (S n)) + 1) with (2 * INR (S n) + 1 + 2) by (rewrite !S_INR; ring).
    set (f := cfrac y m (2 * INR (S n) + 1 + 2)) in *. cbn [An Bn fst snd].
    destruct (Bn_pos y n) as (B1 & B2 & B3 & B4). pose proof (pow2_ge_0 y) as Y.
    set (b1 := snd (Bn y n)) in *. set (b0 := fst (Bn y n)) in *. set (d := 2 * INR (S n) + 1) in *.
    assert (Dp : 0 < d) by (unfold d; rewrite S_INR; lra).
    assert (Q1 : 0 < (d * b1 + y ^ 2 * b0) * f + y ^ 2 * b1).
    { assert (0 < d * b1) by (apply Rmult_lt_0_compat; lra). assert (0 <= y ^ 2 * b0) by (apply Rmult_le_pos; lra).
      assert (0 <= y ^ 2 * b1) by (apply Rmult_le_pos; lra). assert (0 < (d * b1 + y ^ 2 * b0) * f) by (apply Rmult_lt_0_compat; lra). lra. }
    set (Y2 := y ^ 2) in *.
    replace (b1 * (d + Y2 / f) + Y2 * b0) with (((d * b1 + Y2 * b0) * f + Y2 * b1) / f) by (field; lra).
    replace (snd (An y n) * (d + Y2 / f) + Y2 * fst (An y n)) with (((d * snd (An y n) + Y2 * fst (An y n)) * f + Y2 * snd (An y n)) / f) by (field; lra).
    field. split; lra.
Qed.
Lemma lambert_conv : forall n y, lambert (S n) y = snd (An y n) / snd (Bn y n).
Proof.
  intros [|n] y; unfold lambert; cbn [Nat.sub].
  - cbn [cfrac An Bn snd]. reflexivity.
  - pose proof (conv_ratio y n 0) as E. cbv zeta in E. cbn [Nat.add] in E. rewrite <- E. cbn [An Bn fst snd INR cfrac].
    replace (2 * 1 + 1) with (1 + 2) by ring. assert (T : 0 < cfrac y n (1 + 2)) by (apply cfrac_pos; lra).
    set (f := cfrac y n (1 + 2)) in *. pose proof (pow2_ge_0 y). field; repeat split; lra.
Qed.
Lemma lambert_odd : forall N y, lambert N (- y) = - lambert N y.
Proof.
  intros N y. unfold lambert. assert (E : forall m d, cfrac (- y) m d = cfrac y m d).
  { induction m as [|m IH]; intros d; cbn [cfrac]; [auto|]. rewrite IH. f_equal. f_equal. ring. }
  rewrite E. unfold Rdiv. ring.
Qed.
Lemma tanh_odd : forall y, tanh (- y) = - tanh y.
Proof. intros y. unfold tanh, sinh, cosh. rewrite Ropp_involutive. pose proof (exp_pos y). pose proof (exp_pos (- y)). field. lra. Qed.

(** the sign and the size of the truncation error *)
Lemma lambert_error_pos : forall n y, 0 < y ->
  0 < (-1) ^ (S n) * (tanh y - lambert (S n) y) <= y ^ (2 * S n + 1) / (odds (S n) * odds (S (S n))).
Proof.
  intros n y Y. destruct (Bn_pos y n) as (_ & B2 & _ & B4). pose proof (cosh_pos y) as Cp. pose proof (odds_pos (S (S n))) as O2.
  assert (E : (-1) ^ (S n) * (tanh y - lambert (S n) y) = fst (sn y (S n)) / (snd (Bn y n) * cosh y)).
  { cbn [sn fst]. rewrite (proj2 (sn_AB y n)), lambert_conv. unfold tanh. field. split; lra. }
  rewrite E. pose proof (sn_pos (S n) y Y) as S1. pose proof (sn_le (S n) y Y) as S2.
  assert (Q : 0 < snd (Bn y n) * cosh y) by (apply Rmult_lt_0_compat; lra). split.
  - unfold Rdiv. apply Rmult_lt_0_compat; [auto|now apply Rinv_0_lt_compat].
  - apply (Rmult_le_reg_r (snd (Bn y n) * cosh y)); [auto|].
    replace (fst (sn y (S n)) / (snd (Bn y n) * cosh y) * (snd (Bn y n) * cosh y)) with (fst (sn y (S n))) by (field; lra).
    apply Rle_trans with (y ^ (2 * S n + 1) / odds (S (S n)) * cosh y); [exact S2|].
    set (p := y ^ (2 * S n + 1)). assert (Pp : 0 < p) by (apply pow_lt; auto).
    replace (p / (odds (S n) * odds (S (S n))) * (snd (Bn y n) * cosh y)) with (p / odds (S (S n)) * cosh y * (snd (Bn y n) / odds (S n))) by (field; lra).
    rewrite <- (Rmult_1_r (p / odds (S (S n)) * cosh y)) at 1. apply Rmult_le_compat_l.
    + apply Rmult_le_pos; [|lra]. apply Rmult_le_pos; [lra|left; now apply Rinv_0_lt_compat].
    + apply (Rmult_le_reg_r (odds (S n))); [auto|]. replace (snd (Bn y n) / odds (S n) * odds (S n)) with (snd (Bn y n)) by (field; lra). lra.
Qed.
Lemma lambert_error : forall N y, (0 < N)%nat -> Rabs (tanh y - lambert N y) <= Rabs y ^ (2 * N + 1) / (odds N * odds (S N)).
Proof.
  intros [|n] y HN; [lia|].
  assert (P : forall y, 0 < y -> Rabs (tanh y - lambert (S n) y) <= y ^ (2 * S n + 1) / (odds (S n) * odds (S (S n)))).
  { intros z Z. pose proof (lambert_error_pos n z Z) as [H1 H2].
    rewrite <- (Rabs_right ((-1) ^ S n * (tanh z - lambert (S n) z))) in H2 by lra. rewrite Rabs_mult, pow_1_abs, Rmult_1_l in H2. exact H2. }
  destruct (Rtotal_order y 0) as [L|[->|G]].
  - specialize (P (- y) ltac:(lra)). rewrite tanh_odd, lambert_odd in P. rewrite <- (Rabs_Ropp (tanh y - lambert (S n) y)).
    replace (- (tanh y - lambert (S n) y)) with (- tanh y - - lambert (S n) y) by ring. now rewrite (Rabs_left y L).
  - assert (tanh 0 = 0) by (pose proof (tanh_odd 0) as T; rewrite Ropp_0 in T; lra).
    assert (lambert (S n) 0 = 0) by (unfold lambert, Rdiv; ring).
    rewrite H, H0, Rminus_0_r, Rabs_R0, pow_i by lia. unfold Rdiv. rewrite Rmult_0_l. lra.
  - specialize (P y G). now rewrite (Rabs_right y) by lra.
Qed.

(** * The tridiagonal matrix *)
Definition cpl (N k : nat) : R := match k with O => 0 | S _ => if (k <? N)%nat then off k else 0 end.
Definition tmul (N : nat) (u : nat -> R) (k : nat) : R := cpl N k * u (pred k) + cpl N (S k) * u (S k).
Lemma eig_eq : forall N b v, eigensystem (repeat 0 N) (Bvec N) b v ->
  orthonormal N N (fun i k => v k i) /\ forall k i, (k < N)%nat -> (i < N)%nat -> tmul N (fun k => v k i) k = b i * v k i.
Proof.
  intros N b v H. unfold eigensystem in H. rewrite repeat_length in H. cbv zeta in H. destruct H as [O E]. split; [exact O|].
  intros k i Hk Hi. rewrite <- (E k i Hk Hi). rewrite (nth_repeat 0 N k).
  assert (G : forall m, (S m < N)%nat -> nth m (Bvec N) 0 = off (S m)).
  { intros m Hm. unfold Bvec. rewrite (nth_indep _ 0 (off 0)) by (rewrite map_length, seq_length; lia).
    rewrite map_nth, seq_nth by lia. reflexivity. }
  assert (U : nth k (Bvec N) 0 = cpl N (S k)).
  { unfold cpl. destruct (Nat.ltb_spec (S k) N); [now apply G|]. apply nth_overflow. unfold Bvec. rewrite map_length, seq_length. lia. }
  unfold tmul. rewrite U. destruct k as [|m]; cbn [pred cpl].
  - ring.
  - rewrite (G m) by lia. rewrite (proj2 (Nat.ltb_lt (S m) N)) by lia. ring.
Qed.
Lemma off_pos : forall n, (0 < n)%nat -> 0 < off n /\ (off n) ^ 2 * (4 * ((2 * INR n - 1) * (2 * INR n + 1))) = 1.
Proof.
  intros n Hn. assert (1 <= INR n) by (change 1 with (INR 1); apply le_INR; lia).
  assert (P : 0 < (2 * INR n - 1) * (2 * INR n + 1)) by (apply Rmult_lt_0_compat; lra).
  pose proof (sqrt_lt_R0 _ P) as Q. pose proof (sqrt_sqrt _ (Rlt_le _ _ P)) as S2. unfold off. split.
  - unfold Rdiv. rewrite Rmult_1_l. apply Rinv_0_lt_compat. lra.
  - rewrite <- S2 at 2. set (s := sqrt _) in *. field. lra.
Qed.

Section Spectrum.
Variable N : nat.
Variables (b : nat -> R) (v : nat -> nat -> R).
Hypothesis ON : orthonormal N N (fun i k => v k i).
Hypothesis EV : forall k i, (k < N)%nat -> (i < N)%nat -> tmul N (fun k => v k i) k = b i * v k i.

Lemma rows : forall p q, (p < N)%nat -> (q < N)%nat -> sumR N (fun i => v p i * v q i) = delta p q.
Proof. intros p q Hp Hq. exact (resolution N (fun i k => v k i) ON p q Hp Hq). Qed.

(** the eigenvector with signs alternating belongs to the opposite eigenvalue *)
Definition M (j i : nat) : R := sumR N (fun k => (-1) ^ k * (v k j * v k i)).
Lemma M_sym : forall i j, M i j = M j i.
Proof. intros i j. apply sumR_ext. intros. ring. Qed.
Lemma M_support : forall i j, (i < N)%nat -> (j < N)%nat -> (b i + b j) * M j i = 0.
Proof.
  intros i j Hi Hj. pose (h := fun k => cpl N k * (v (pred k) j * v k i + v k j * v (pred k) i)).
  assert (T : forall n, sumR n (fun k => (-1) ^ k * (h k + h (S k))) = h 0%nat - (-1) ^ n * h n).
  { induction n as [|n IH]; cbn [sumR]; [cbn [pow]; ring|]. rewrite IH. cbn [pow]. ring. }
  unfold M. rewrite <- sumR_mul_l.
  rewrite (sumR_ext N _ (fun k => (-1) ^ k * (h k + h (S k)))).
  - rewrite T. unfold h. cbn [cpl]. destruct N as [|n]; [lia|]. cbn [cpl]. rewrite Nat.ltb_irrefl. ring.
  - intros k Hk. replace ((b i + b j) * ((-1) ^ k * (v k j * v k i))) with ((-1) ^ k * ((b j * v k j) * v k i + v k j * (b i * v k i))) by ring.
    rewrite <- (EV k i Hk Hi), <- (EV k j Hk Hj). unfold tmul, h. cbn [pred]. ring.
Qed.
Lemma sq_sign : forall k, (-1) ^ k * (-1) ^ k = 1.
Proof. intros k. rewrite <- Rpow_mult_distr. replace (-1 * -1) with 1 by ring. apply pow1. Qed.
(** M is orthogonal and fixes the first row *)
Lemma M_orth : forall i, (i < N)%nat -> sumR N (fun j => M j i * M j i) = 1.
Proof.
  intros i Hi. unfold M at 1.
  rewrite (sumR_ext N _ (fun j => sumR N (fun k => ((-1) ^ k * v k i) * (v k j * M j i)))).
  2:{ intros j Hj. rewrite <- sumR_mul_r. apply sumR_ext. intros. ring. }
  rewrite sumR_swap. rewrite (sumR_ext N _ (fun k => v k i * v k i)).
  - pose proof (ON i i Hi Hi) as E. unfold ip, delta in E. rewrite Nat.eqb_refl in E. exact E.
  - intros k Hk. rewrite sumR_mul_l.
    assert (E : sumR N (fun j => v k j * M j i) = (-1) ^ k * v k i).
    { unfold M. rewrite (sumR_ext N _ (fun j => sumR N (fun l => ((-1) ^ l * v l i) * (v k j * v l j)))).
      2:{ intros j Hj. rewrite <- sumR_mul_l. apply sumR_ext. intros. ring. }
      rewrite sumR_swap. rewrite (sumR_ext N _ (fun l => (if Nat.eqb l k then 1 else 0) * ((-1) ^ l * v l i))).
      - now rewrite sumR_delta.
      - intros l Hl. rewrite sumR_mul_l, rows by auto. unfold delta. rewrite (Nat.eqb_sym k l). ring. }
    rewrite E. replace ((-1) ^ k * v k i * ((-1) ^ k * v k i)) with (((-1) ^ k * (-1) ^ k) * (v k i * v k i)) by ring. rewrite sq_sign. ring.
Qed.
Lemma M_row0 : forall i, (i < N)%nat -> sumR N (fun j => M j i * v 0%nat j) = v 0%nat i.
Proof.
  intros i Hi. unfold M. rewrite (sumR_ext N _ (fun j => sumR N (fun l => ((-1) ^ l * v l i) * (v 0%nat j * v l j)))).
  2:{ intros j Hj. rewrite <- sumR_mul_r. apply sumR_ext. intros. ring. }
  rewrite sumR_swap. rewrite (sumR_ext N _ (fun l => (if Nat.eqb l 0 then 1 else 0) * ((-1) ^ l * v l i))).
  - rewrite sumR_delta by lia. cbn [pow]. ring.
  - intros l Hl. rewrite sumR_mul_l, rows by lia. unfold delta. rewrite (Nat.eqb_sym 0 l). ring.
Qed.
Definition pos (i : nat) : R := if Rlt_dec 0 (b i) then 1 else 0.
Definition neg (i : nat) : R := if Rlt_dec (b i) 0 then 1 else 0.
Lemma M_posneg : forall i j, (i < N)%nat -> (j < N)%nat -> pos i * M j i = neg j * M j i.
Proof.
  intros i j Hi Hj. destruct (Req_dec (M j i) 0) as [->|NZ]; [ring|].
  assert (E : b i + b j = 0). { destruct (Rmult_integral _ _ (M_support i j Hi Hj)); [auto|contradiction]. }
  unfold pos, neg. destruct (Rlt_dec 0 (b i)), (Rlt_dec (b j) 0); lra.
Qed.
Lemma count_pm : sumR N pos = sumR N neg.
Proof.
  rewrite (sumR_ext N pos (fun i => sumR N (fun j => pos i * M j i * M j i))).
  2:{ intros i Hi. rewrite (sumR_ext N _ (fun j => pos i * (M j i * M j i))) by (intros; ring). rewrite sumR_mul_l, M_orth by auto. ring. }
  rewrite (sumR_ext N neg (fun j => sumR N (fun i => neg j * M j i * M j i))).
  2:{ intros j Hj. rewrite (sumR_ext N _ (fun i => neg j * (M i j * M i j))) by (intros i Hi; rewrite (M_sym j i); ring). rewrite sumR_mul_l, M_orth by auto. ring. }
  rewrite sumR_swap. apply sumR_ext. intros j Hj. apply sumR_ext. intros i Hi. now rewrite M_posneg.
Qed.
Lemma weight_pm : forall h, (forall t, h (- t) = h t) ->
  sumR N (fun i => pos i * (v 0%nat i ^ 2 * h (b i))) = sumR N (fun i => neg i * (v 0%nat i ^ 2 * h (b i))).
Proof.
  intros h Hh.
  rewrite (sumR_ext N (fun i => pos i * (v 0%nat i ^ 2 * h (b i))) (fun i => sumR N (fun j => pos i * M j i * (v 0%nat i * v 0%nat j) * h (b i)))).
  2:{ intros i Hi. rewrite (sumR_ext N _ (fun j => (pos i * v 0%nat i * h (b i)) * (M j i * v 0%nat j))) by (intros; ring).
      rewrite sumR_mul_l, M_row0 by auto. ring. }
  rewrite (sumR_ext N (fun i => neg i * (v 0%nat i ^ 2 * h (b i))) (fun j => sumR N (fun i => neg j * M j i * (v 0%nat i * v 0%nat j) * h (b i)))).
  - rewrite sumR_swap. apply sumR_ext. intros j Hj. apply sumR_ext. intros i Hi. now rewrite M_posneg.
  - intros j Hj. rewrite (sumR_ext N _ (fun i => (neg j * v 0%nat j * h (b j)) * (M i j * v 0%nat i))).
    + rewrite sumR_mul_l, M_row0 by auto. ring.
    + intros i Hi. rewrite (M_sym j i). destruct (Req_dec (M i j) 0) as [->|NZ]; [ring|].
      assert (E : b j + b i = 0). { destruct (Rmult_integral _ _ (M_support j i Hj Hi)); [auto|contradiction]. }
      replace (b i) with (- b j) by lra. rewrite Hh. ring.
Qed.

(** no eigenvector vanishes in its first component *)
Lemma cpl_pos : forall k, (0 < k < N)%nat -> 0 < cpl N k.
Proof. intros [|k] H; [lia|]. cbn [cpl]. rewrite (proj2 (Nat.ltb_lt (S k) N)) by lia. apply off_pos. lia. Qed.
Lemma norm1 : forall i, (i < N)%nat -> exists k, (k < N)%nat /\ v k i <> 0.
Proof.
  intros i Hi. destruct (nonzero_dec N (fun k => v k i)) as [H|H]; [exact H|]. exfalso.
  pose proof (ON i i Hi Hi) as E. unfold ip, delta in E. rewrite Nat.eqb_refl, sumR_0 in E; [lra|].
  intros k Hk. rewrite (H k Hk). ring.
Qed.
Lemma first_nonzero : forall i, (i < N)%nat -> v 0%nat i <> 0.
Proof.
  intros i Hi Z. assert (A : forall k, ((k < N)%nat -> v k i = 0) /\ ((S k < N)%nat -> v (S k) i = 0)).
  { induction k as [|k [I1 I2]].
    - split; [auto|]. intros H. pose proof (EV 0 i ltac:(lia) Hi) as E. unfold tmul in E. cbn [pred] in E. rewrite Z in E.
      pose proof (cpl_pos 1 ltac:(lia)). assert (cpl N 1 * v 1%nat i = 0) by lra. destruct (Rmult_integral _ _ H1); lra.
    - split; [exact I2|]. intros H. pose proof (EV (S k) i ltac:(lia) Hi) as E. unfold tmul in E. cbn [pred] in E.
      rewrite (I1 ltac:(lia)), (I2 ltac:(lia)) in E. pose proof (cpl_pos (S (S k)) ltac:(lia)).
      assert (cpl N (S (S k)) * v (S (S k)) i = 0) by lra. destruct (Rmult_integral _ _ H1); lra. }
  destruct (norm1 i Hi) as (k & Hk & Nk). apply Nk. now apply A.
Qed.
(** an even number of states: no eigenvalue vanishes *)
Lemma no_zero : Nat.Even N -> forall i, (i < N)%nat -> b i <> 0.
Proof.
  intros [n Hn] i Hi Z. apply (first_nonzero i Hi).
  assert (A : forall m, (m < n)%nat -> v (2 * (n - 1 - m))%nat i = 0).
  { induction m as [|m IH]; intros Hm.
    - pose proof (EV (2 * n - 1) i ltac:(lia) Hi) as E. unfold tmul in E. rewrite Z in E.
      replace (S (2 * n - 1)) with N in E by lia. replace (cpl N N) with 0 in E by (unfold cpl; destruct N; [auto|now rewrite Nat.ltb_irrefl]).
      pose proof (cpl_pos (2 * n - 1) ltac:(lia)). replace (2 * (n - 1 - 0))%nat with (pred (2 * n - 1)) by lia.
      assert (P : cpl N (2 * n - 1) * v (pred (2 * n - 1)) i = 0) by lra. destruct (Rmult_integral _ _ P); lra.
    - specialize (IH ltac:(lia)). set (k := (2 * (n - 1 - m) - 1)%nat). pose proof (EV k i ltac:(unfold k; lia) Hi) as E. unfold tmul in E. rewrite Z in E.
      replace (S k) with (2 * (n - 1 - m))%nat in E by (unfold k; lia). rewrite IH in E. pose proof (cpl_pos k ltac:(unfold k; lia)).
      replace (2 * (n - 1 - S m))%nat with (pred k) by (unfold k; lia).
      assert (P : cpl N k * v (pred k) i = 0) by lra. destruct (Rmult_integral _ _ P); lra. }
  specialize (A (n - 1)%nat ltac:(lia)). now replace (2 * (n - 1 - (n - 1)))%nat with 0%nat in A by lia.
Qed.

(** the resolvent *)
Section Resolvent.
Variable x : R.
Let w (i : nat) : R := 1 + x ^ 2 * b i ^ 2.
Lemma w_pos : forall i, 0 < w i.
Proof. intros i. unfold w. pose proof (pow2_ge_0 (x * b i)). rewrite Rpow_mult_distr in H. lra. Qed.
Definition pk (k : nat) : R := sumR N (fun i => v k i * v 0%nat i / w i).
Definition qk (k : nat) : R := sumR N (fun i => x * b i * (v k i * v 0%nat i) / w i).
Lemma tmul_sum : forall (c : nat -> R) k, (k < N)%nat ->
  tmul N (fun k => sumR N (fun i => c i * v k i)) k = sumR N (fun i => c i * (b i * v k i)).
Proof.
  intros c k Hk. unfold tmul. rewrite <- !sumR_mul_l, <- sumR_plus. apply sumR_ext. intros i Hi.
  rewrite <- (EV k i Hk Hi). unfold tmul. ring.
Qed.
Lemma eq_q : forall k, (k < N)%nat -> qk k = x * tmul N pk k.
Proof.
  intros k Hk. assert (E : tmul N pk k = tmul N (fun k => sumR N (fun i => (v 0%nat i / w i) * v k i)) k).
  { unfold tmul, pk. f_equal; f_equal; apply sumR_ext; intros; unfold Rdiv; ring. }
  rewrite E, tmul_sum, <- sumR_mul_l by auto. apply sumR_ext. intros. unfold Rdiv. ring.
Qed.
Lemma eq_p : forall k, (k < N)%nat -> pk k = delta k 0 - x * tmul N qk k.
Proof.
  intros k Hk. assert (E : tmul N qk k = tmul N (fun k => sumR N (fun i => (x * b i * v 0%nat i / w i) * v k i)) k).
  { unfold tmul, qk. f_equal; f_equal; apply sumR_ext; intros; unfold Rdiv; ring. }
  rewrite E, tmul_sum, <- sumR_mul_l by auto. rewrite <- (rows k 0 Hk) by lia. rewrite <- sumR_minus. apply sumR_ext. intros i Hi.
  pose proof (w_pos i). unfold w in *. field. lra.
Qed.
Let y := x / 2.
Lemma cpl_sq : forall k, (S k < N)%nat -> (x * cpl N (S k)) ^ 2 * ((2 * INR k + 1) * (2 * INR (S k) + 1)) = y ^ 2.
Proof.
  intros k Hk. cbn [cpl]. rewrite (proj2 (Nat.ltb_lt (S k) N)) by lia. destruct (off_pos (S k) ltac:(lia)) as [_ E].
  replace (2 * INR k + 1) with (2 * INR (S k) - 1) by (rewrite S_INR; ring). unfold y.
  replace ((x / 2) ^ 2) with (x ^ 2 / 4 * (off (S k) ^ 2 * (4 * ((2 * INR (S k) - 1) * (2 * INR (S k) + 1))))); [|rewrite E; field]. field.
Qed.
Let F (k : nat) : R := cfrac y (N - 1 - k) (2 * INR k + 1).
Lemma F_pos : forall k, 0 < F k.
Proof. intros k. apply cfrac_pos. pose proof (pos_INR k). lra. Qed.
Lemma F_step : forall k, (S k < N)%nat -> F k = (2 * INR k + 1) + y ^ 2 / F (S k).
Proof.
  intros k Hk. unfold F. replace (N - 1 - k)%nat with (S (N - 1 - S k)) by lia. cbn [cfrac].
  replace (2 * INR k + 1 + 2) with (2 * INR (S k) + 1) by (rewrite S_INR; ring). reflexivity.
Qed.
Lemma F_last : forall k, (S k = N)%nat -> F k = 2 * INR k + 1.
Proof. intros k Hk. unfold F. replace (N - 1 - k)%nat with 0%nat by lia. reflexivity. Qed.
(** eliminate from the last row upwards *)
Lemma elim : forall m k, (k + S m = N)%nat ->
  pk k * (F k / (2 * INR k + 1)) = delta k 0 - x * cpl N k * qk (pred k) /\
  qk k * (F k / (2 * INR k + 1)) = x * cpl N k * pk (pred k).
Proof.
  induction m as [|m IH]; intros k Hk.
  - pose proof (eq_p k ltac:(lia)) as P. pose proof (eq_q k ltac:(lia)) as Q. unfold tmul in P, Q.
    replace (cpl N (S k)) with 0 in P, Q by (cbn [cpl]; rewrite (proj2 (Nat.ltb_ge (S k) N)) by lia; auto).
    rewrite F_last by lia. pose proof (pos_INR k). replace ((2 * INR k + 1) / (2 * INR k + 1)) with 1 by (field; lra). lra.
  - destruct (IH (S k) ltac:(lia)) as [IP IQ]. cbn [pred] in IP, IQ. cbn [delta Nat.eqb] in IP. unfold delta in IP. cbn [Nat.eqb] in IP.
    pose proof (eq_p k ltac:(lia)) as P. pose proof (eq_q k ltac:(lia)) as Q. unfold tmul in P, Q.
    pose proof (cpl_sq k ltac:(lia)) as C2. pose proof (F_pos (S k)) as FP. pose proof (F_step k ltac:(lia)) as FS.
    pose proof (pos_INR k) as KP. pose proof (pos_INR (S k)) as KP'.
    set (d := 2 * INR k + 1) in *. set (d' := 2 * INR (S k) + 1) in *. assert (Dp : 0 < d) by (unfold d; lra). assert (Dp' : 0 < d') by (unfold d'; lra).
    set (c := cpl N (S k)) in *. set (f := F (S k)) in *.
    assert (P1 : pk (S k) = - (x * c) * qk k * d' / f) by (apply (Rmult_eq_reg_r (f / d')); [rewrite IP; field; lra|apply Rgt_not_eq; apply Rdiv_lt_0_compat; lra]).
    assert (Q1 : qk (S k) = x * c * pk k * d' / f) by (apply (Rmult_eq_reg_r (f / d')); [rewrite IQ; field; lra|apply Rgt_not_eq; apply Rdiv_lt_0_compat; lra]).
    assert (FE : F k / d = 1 + (x * c) ^ 2 * d' / f).
    { rewrite FS, <- C2. field. lra. }
    rewrite FE. split.
    + assert (EQ : x * (c * qk (S k)) = pk k * ((x * c) ^ 2 * d' / f)) by (rewrite Q1; field; lra).
      rewrite Rmult_plus_distr_l, <- EQ. rewrite Rmult_plus_distr_l in P. lra.
    + assert (EQ : x * (c * pk (S k)) = - (qk k * ((x * c) ^ 2 * d' / f))) by (rewrite P1; field; lra).
      rewrite Rmult_plus_distr_l. rewrite Rmult_plus_distr_l in Q. lra.
Qed.
Lemma resolvent : (0 < N)%nat -> y * pk 0 = lambert N y.
Proof.
  intros HN. destruct (elim (N - 1) 0 ltac:(lia)) as [E _]. cbn [cpl pred INR] in E. unfold delta in E. cbn [Nat.eqb] in E.
  pose proof (F_pos 0) as FP. unfold lambert. assert (FE : F 0 = cfrac y (N - 1) 1).
  { unfold F. rewrite Nat.sub_0_r. cbn [INR]. f_equal. ring. }
  rewrite <- FE. assert (E' : pk 0 * F 0 = 1) by (transitivity (pk 0 * (F 0 / (2 * 0 + 1))); [field; lra|rewrite E; ring]).
  apply (Rmult_eq_reg_r (F 0)); [|lra]. transitivity (y * (pk 0 * F 0)); [ring|]. rewrite E'. field. lra.
Qed.
End Resolvent.
End Spectrum.

(** * The loop *)
Lemma fold_store : forall b v l P m, (length (filter (fun i => if Rlt_dec 0 (b i) then true else false) l) <= m)%nat ->
  fold_left (store b v) l (Some (length P, P ++ repeat (0, 0) m)) =
  let s := map (row b v) (filter (fun i => if Rlt_dec 0 (b i) then true else false) l) in
  Some (length (P ++ s), (P ++ s) ++ repeat (0, 0) (m - length s)).
Proof.
  intros b v l. induction l as [|i l IH]; intros P m H; cbv zeta.
  - cbn [fold_left filter map length]. now rewrite app_nil_r, Nat.sub_0_r.
  - cbn [fold_left filter] in *. unfold store at 2. destruct (Rlt_dec 0 (b i)) as [Hp|Hn].
    + cbn [length map] in *. destruct m as [|m]; [lia|].
      rewrite (proj2 (Nat.ltb_lt _ _)) by (rewrite app_length, repeat_length; lia).
      assert (U : forall Q, upd (length Q) (row b v i) (Q ++ repeat (0, 0) (S m)) = (Q ++ [row b v i]) ++ repeat (0, 0) m).
      { induction Q as [|q Q IQ]; cbn [length app upd repeat]; [reflexivity|]. f_equal. exact IQ. }
      rewrite U. replace (S (length P)) with (length (P ++ [row b v i])) by (rewrite app_length; cbn [length]; lia).
      rewrite IH by lia. cbv zeta. rewrite <- !app_assoc. reflexivity.
    + rewrite IH by lia. reflexivity.
Qed.
Lemma sum_filter : forall (b : nat -> R) (g : nat -> R) n,
  fold_right Rplus 0 (map g (filter (fun i => if Rlt_dec 0 (b i) then true else false) (seq 0 n))) = sumR n (fun i => pos b i * g i).
Proof.
  intros b g n. induction n as [|n IH]; [reflexivity|]. rewrite seq_S, filter_app, map_app, fold_right_app. cbn [filter Nat.add sumR].
  assert (A : forall l c, fold_right Rplus c l = fold_right Rplus 0 l + c) by (induction l as [|a l IL]; intros c; cbn [fold_right]; [ring|rewrite IL; ring]).
  rewrite A, IH. unfold pos. destruct (Rlt_dec 0 (b n)); cbn [map fold_right]; ring.
Qed.
Lemma length_filter : forall (b : nat -> R) n, INR (length (filter (fun i => if Rlt_dec 0 (b i) then true else false) (seq 0 n))) = sumR n (pos b).
Proof.
  intros b n. rewrite (sumR_ext n (pos b) (fun i => pos b i * 1)) by (intros; ring). rewrite <- sum_filter.
  induction (filter _ (seq 0 n)) as [|a l IL]; [reflexivity|]. cbn [length map fold_right]. rewrite S_INR, IL. ring.
Qed.

(** * Properties *)
Definition eigh_contract (eigh : list R -> list R -> (nat -> R) * (nat -> nat -> R)) (N : nat) : Prop :=
  let r := eigh (repeat 0 N) (Bvec N) in eigensystem (repeat 0 N) (Bvec N) (fst r) (snd r).
(** N/2 rows are filled, no store fails, reciprocal poles and residues are positive, and the expansion is Lambert's continued fraction *)
Theorem C64_expansion : forall eigh n, (0 < n)%nat -> eigh_contract eigh (2 * n) -> exists L, ozaki eigh (2 * n) = Some L /\ length L = n /\
  (forall br, In br L -> 0 < fst br /\ 0 < snd br) /\ forall x, expansion L x = lambert (2 * n) (x / 2).
Proof.
  intros eigh n Hn H. set (N := (2 * n)%nat) in *. unfold eigh_contract in H. cbv zeta in H. apply eig_eq in H.
  unfold ozaki. cbv zeta. destruct (eigh (repeat 0 N) (Bvec N)) as [b v]. cbn [fst snd] in *. destruct H as [ON EV].
  assert (NZ : forall i, (i < N)%nat -> b i <> 0) by (apply (no_zero N b v ON EV); exists n; reflexivity).
  set (fl := filter (fun i => if Rlt_dec 0 (b i) then true else false) (seq 0 N)).
  assert (LF : length fl = n).
  { apply INR_eq. unfold fl. rewrite length_filter. pose proof (count_pm N b v ON EV) as C.
    assert (T : sumR N (pos b) + sumR N (neg b) = INR N).
    { rewrite <- sumR_plus. rewrite (sumR_ext N _ (fun _ => 1)).
      - clear. induction N as [|k IH]; [reflexivity|]. cbn [sumR]. rewrite IH, S_INR. reflexivity.
      - intros i Hi. specialize (NZ i Hi). unfold pos, neg. destruct (Rlt_dec 0 (b i)), (Rlt_dec (b i) 0); lra. }
    unfold N in T at 3. rewrite mult_INR in T. change (INR 2) with 2 in T. lra. }
  replace (N / 2)%nat with n by (unfold N; rewrite Nat.mul_comm, Nat.div_mul; lia).
  exists (map (row b v) fl). split; [|split; [|split]].
  - pose proof (fold_store b v (seq 0 N) [] n) as FS. fold fl in FS. specialize (FS ltac:(lia)). cbn [length app] in FS. cbv zeta in FS.
    rewrite FS. cbn [option_map snd]. rewrite map_length, LF, Nat.sub_diag. cbn [repeat]. now rewrite app_nil_r.
  - now rewrite map_length.
  - intros br HI. apply in_map_iff in HI. destruct HI as (i & <- & HI). unfold fl in HI. apply filter_In in HI. destruct HI as [HI Hp].
    apply in_seq in HI. destruct (Rlt_dec 0 (b i)) as [P|]; [|discriminate]. cbn [row fst snd]. split; [exact P|].
    pose proof (first_nonzero N b v ON EV i ltac:(lia)) as NZ0. apply Rdiv_lt_0_compat.
    + pose proof (Rsqr_pos_lt _ NZ0) as Q. unfold Rsqr in Q. cbn [pow]. lra.
    + apply Rmult_lt_0_compat; [lra|]. apply pow_lt. exact P.
  - intros x. rewrite <- (resolvent N b v ON EV x) by (unfold N; lia). unfold expansion. rewrite map_map.
    unfold fl. rewrite (sum_filter b (fun i => snd (row b v i) / (x ^ 2 + (1 / fst (row b v i)) ^ 2))). cbn [row fst snd].
    set (h := fun t => / (1 + x ^ 2 * t ^ 2)).
    assert (S1 : sumR N (fun i => pos b i * (v 0%nat i ^ 2 / (4 * b i ^ 2) / (x ^ 2 + (1 / b i) ^ 2))) = / 4 * sumR N (fun i => pos b i * (v 0%nat i ^ 2 * h (b i)))).
    { rewrite <- sumR_mul_l. apply sumR_ext. intros i Hi. specialize (NZ i Hi). pose proof (w_pos b x i). unfold h. field.
      repeat split; auto; lra. }
    assert (S2 : pk N b v x 0 = 2 * sumR N (fun i => pos b i * (v 0%nat i ^ 2 * h (b i)))).
    { transitivity (sumR N (fun i => pos b i * (v 0%nat i ^ 2 * h (b i))) + sumR N (fun i => neg b i * (v 0%nat i ^ 2 * h (b i)))).
      - rewrite <- sumR_plus. apply sumR_ext. intros i Hi. specialize (NZ i Hi). unfold pos, neg, h, Rdiv.
        destruct (Rlt_dec 0 (b i)), (Rlt_dec (b i) 0); lra.
      - rewrite <- (weight_pm N b v ON EV h); [ring|]. intros t. unfold h. f_equal. ring. }
    rewrite S1, S2. field.
Qed.
(** the error of the expansion: explicit bound, and a lower bound of tanh for positive arguments *)
Theorem C64_tanh : forall eigh n L, (0 < n)%nat -> eigh_contract eigh (2 * n) -> ozaki eigh (2 * n) = Some L -> forall x,
  Rabs (tanh (x / 2) - expansion L x) <= Rabs (x / 2) ^ (4 * n + 1) / (odds (2 * n) * odds (2 * n + 1)) /\
  (0 < x -> expansion L x < tanh (x / 2)).
Proof.
  intros eigh n L Hn HE HL x. destruct (C64_expansion eigh n Hn HE) as (L' & E & _ & _ & X). rewrite HL in E. injection E as <-. rewrite X. split.
  - pose proof (lambert_error (2 * n) (x / 2) ltac:(lia)) as H. replace (2 * (2 * n) + 1)%nat with (4 * n + 1)%nat in H by lia.
    now replace (S (2 * n)) with (2 * n + 1)%nat in H by lia.
  - intros Hx. pose proof (lambert_error_pos (2 * n - 1) (x / 2) ltac:(lra)) as [H _]. replace (S (2 * n - 1)) with (2 * n)%nat in H by lia.
    rewrite pow_mult in H. replace ((-1) ^ 2) with 1 in H by ring. rewrite pow1 in H. lra.
Qed.

(** with more poles the expansion converges to tanh at every x *)
Lemma odds_fact : forall n, INR (fact n) <= odds n.
Proof.
  induction n as [|n IH]; [cbn; lra|]. cbn [odds]. rewrite fact_simpl, mult_INR, Rmult_comm. pose proof (pos_INR n).
  apply Rmult_le_compat; [apply pos_INR|apply pos_INR|exact IH|rewrite S_INR; lra].
Qed.
Theorem C64_converges : forall x eps, 0 < eps -> exists n0, forall eigh n L, (n0 <= n)%nat -> (0 < n)%nat -> eigh_contract eigh (2 * n) ->
  ozaki eigh (2 * n) = Some L -> Rabs (tanh (x / 2) - expansion L x) < eps.
Proof.
  intros x eps He. set (y := Rabs (x / 2)). assert (Y : 0 <= y) by apply Rabs_pos.
  set (e := Rmin 1 (eps / (y + 1))). assert (E0 : 0 < e) by (apply Rmin_pos; [lra|apply Rdiv_lt_0_compat; lra]).
  destruct (cv_speed_pow_fact y e E0) as (n0 & H0). exists n0. intros eigh n L Hn0 Hn HE HL.
  destruct (C64_tanh eigh n L Hn HE HL x) as [B _]. apply Rle_lt_trans with (1 := B). fold y.
  set (N := (2 * n)%nat). replace (4 * n + 1)%nat with (S (N + N)) by (unfold N; lia). replace (N + 1)%nat with (S N) by lia.
  cbn [pow]. rewrite pow_add. pose proof (odds_pos N) as O1. pose proof (odds_pos (S N)) as O2.
  assert (Q : y ^ N / INR (fact N) < e).
  { specialize (H0 N ltac:(unfold ge, N; lia)). unfold R_dist in H0. rewrite Rminus_0_r in H0. eapply Rle_lt_trans; [apply Rle_abs|exact H0]. }
  assert (FP : 0 < INR (fact N)) by apply INR_fact_lt_0. assert (YP : 0 <= y ^ N) by now apply pow_le.
  assert (Z : forall o, INR (fact N) <= o -> 0 <= y ^ N / o < e).
  { intros o Ho. assert (0 < o) by lra. split; [apply Rmult_le_pos; [auto|left; now apply Rinv_0_lt_compat]|].
    apply Rle_lt_trans with (2 := Q). apply Rmult_le_compat_l; [auto|]. now apply Rinv_le_contravar. }
  destruct (Z _ (odds_fact N)) as [Z1 Z2].
  destruct (Z (odds (S N))) as [Z3 Z4].
  { apply Rle_trans with (2 := odds_fact (S N)). apply le_INR. apply fact_le. lia. }
  replace (y * (y ^ N * y ^ N) / (odds N * odds (S N))) with (y * (y ^ N / odds N * (y ^ N / odds (S N)))) by (field; lra).
  assert (e <= 1) by apply Rmin_l. assert (E1 : e <= eps / (y + 1)) by apply Rmin_r.
  assert (P : y ^ N / odds N * (y ^ N / odds (S N)) <= e).
  { rewrite <- (Rmult_1_r e). apply Rmult_le_compat; lra. }
  apply Rle_lt_trans with (y * e); [apply Rmult_le_compat_l; lra|].
  assert (y * e <= y * (eps / (y + 1))) by (apply Rmult_le_compat_l; lra).
  assert (eps = y * (eps / (y + 1)) + eps / (y + 1)) by (field; lra).
  assert (0 < eps / (y + 1)) by (apply Rdiv_lt_0_compat; lra). lra.
Qed.

(** N = 2: one pole at 2 sqrt 3 with residue 3/2, tanh (x/2) ~ 6 x / (x^2 + 12) *)
Definition eigh2 (d e : list R) : (nat -> R) * (nat -> nat -> R) :=
  (fun i => match i with O => - off 1 | _ => off 1 end,
   fun k i => match k, i with O, _ => / sqrt 2 | 1%nat, O => - / sqrt 2 | 1%nat, _ => / sqrt 2 | _, _ => 0 end).
Example C64_case : eigh_contract eigh2 (2 * 1) /\ ozaki eigh2 (2 * 1) = Some [(1 / (2 * sqrt ((2 * 1 - 1) * (2 * 1 + 1))), 3 / 2)] /\
  lambert (2 * 1) (1 / 2) = 6 / 13 /\ odds 2 = 3 /\ odds 3 = 15.
Proof.
  assert (S2 : / sqrt 2 * / sqrt 2 = / 2).
  { rewrite <- Rinv_mult, sqrt_sqrt by lra. reflexivity. }
  destruct (off_pos 1 ltac:(lia)) as [OP OE]. cbn [INR] in OE.
  split; [|split; [|split; [|split]]].
  - unfold eigh_contract, eigensystem, eigh2. cbn [Nat.mul Nat.add repeat length Bvec Nat.sub seq map fst snd]. split.
    + intros i j Hi Hj. unfold ip. cbn [sumR]. unfold delta.
      destruct i as [|[|i]], j as [|[|j]]; try lia; cbn [Nat.eqb]; lra.
    + intros k i Hk Hi. destruct k as [|[|k]], i as [|[|i]]; try lia; cbn [nth]; ring.
  - unfold ozaki, eigh2. cbn [Nat.mul Nat.add seq fold_left fst snd]. change (2 / 2)%nat with 1%nat. cbn [repeat].
    unfold store. destruct (Rlt_dec 0 (- off 1)); [lra|]. destruct (Rlt_dec 0 (off 1)); [|lra]. cbn [length Nat.ltb Nat.leb upd option_map snd].
    unfold row. f_equal. f_equal. f_equal. apply (Rmult_eq_reg_r (4 * off 1 ^ 2)); [|apply Rgt_not_eq; apply Rmult_lt_0_compat; [lra|now apply pow_lt]].
    replace ((/ sqrt 2) ^ 2) with (/ 2) by (rewrite <- S2; ring). unfold Rdiv at 1. rewrite Rmult_assoc, Rinv_l by (apply Rgt_not_eq; apply Rmult_lt_0_compat; [lra|now apply pow_lt]).
    lra.
  - unfold lambert. cbn [Nat.mul Nat.add Nat.sub cfrac]. field.
  - cbn [odds INR]. ring.
  - cbn [odds INR]. ring.
Qed.
Print Assumptions C64_expansion.
Print Assumptions C64_tanh.
Print Assumptions C64_converges.
