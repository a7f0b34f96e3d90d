(** C63: with the true digamma function, diff_phi and diff2_phi are the first two derivatives of phi up to 1e-17. *)
From Coq Require Import Reals List Arith ZArith Lra Lia Psatz.
From Verif Require Import CplxR Polygamma PropPolygamma SpecFunc RTDInt PropRTDInt.
Local Open Scope R_scope.
Add Ring C_ringD : C_ring (power_tac C_power [Rpow_tac]).
Add Field C_fieldD : C_field (power_tac C_power [Rpow_tac]).

(** ** Specification *)
(** psi(U) = lim ln N - sum_{n < N} 1/(U+n) *)
Definition is_digamma (U : C) (L : C) : Prop := limit (fun n => (ofR (ln (INR n)) - series U 0 n)%C) L.
Definition line (y : R) : C := mk (/ 2) y.

(** ** Limits *)
Lemma limit_Re : forall s L, limit s L -> Un_cv (fun n => Re (s n)) (Re L).
Proof. intros s L H eps He. destruct (H eps He) as (n0 & K). exists n0. intros n Hn. unfold R_dist. eapply Rle_lt_trans; [|exact (K n Hn)]. exact (cmod_Re (s n - L)%C). Qed.
Lemma limit_Im : forall s L, limit s L -> Un_cv (fun n => Im (s n)) (Im L).
Proof. intros s L H eps He. destruct (H eps He) as (n0 & K). exists n0. intros n Hn. unfold R_dist. eapply Rle_lt_trans; [|exact (K n Hn)]. exact (cmod_Im (s n - L)%C). Qed.
Lemma limit_unique : forall s L L', limit s L -> limit s L' -> L = L'.
Proof. intros s L L' H H'. apply C_eq; [exact (UL_sequence _ _ _ (limit_Re _ _ H) (limit_Re _ _ H'))|exact (UL_sequence _ _ _ (limit_Im _ _ H) (limit_Im _ _ H'))]. Qed.
Lemma cv_bound : forall u l B, Un_cv u l -> (forall n, Rabs (u n) <= B) -> Rabs l <= B.
Proof.
  intros u l B H K. apply Rnot_lt_le. intros LT. destruct (H (Rabs l - B) ltac:(lra)) as (n0 & Q). specialize (Q n0 (le_n _)). unfold R_dist in Q. specialize (K n0).
  assert (T := Rabs_triang (u n0) (l - u n0)). replace (u n0 + (l - u n0)) with l in T by ring. rewrite (Rabs_minus_sym l) in T. lra.
Qed.
Lemma cv_scal : forall c u l, Un_cv u l -> Un_cv (fun n => c * u n) (c * l).
Proof. intros c u l H. apply (CV_mult (fun _ => c) u); [|exact H]. intros eps He. exists 0%nat. intros. rewrite R_dist_eq. exact He. Qed.
Lemma cv_ext : forall u v l, (forall n, u n = v n) -> Un_cv u l -> Un_cv v l.
Proof. intros u v l E H eps He. destruct (H eps He) as (n0 & K). exists n0. intros n Hn. rewrite <- E. now apply K. Qed.
(** sums of differentiable terms with a summable second order remainder *)
Lemma rsum_ext : forall f g n, (forall i, f i = g i) -> rsum_ f n = rsum_ g n.
Proof. intros f g n H. induction n; cbn; [reflexivity|]. now rewrite IHn, H. Qed.
Lemma rsum_abs : forall f c n, (forall i, Rabs (f i) <= c i) -> Rabs (rsum_ f n) <= rsum_ c n.
Proof. intros f c n H. induction n; cbn; [rewrite Rabs_R0; lra|]. eapply Rle_trans; [apply Rabs_triang|]. specialize (H n). lra. Qed.
Lemma rsum_lin : forall f g h (a : R) n, rsum_ f n - rsum_ g n - a * rsum_ h n = rsum_ (fun i => f i - g i - a * h i) n.
Proof. intros. induction n; cbn; [ring|]. rewrite <- IHn. ring. Qed.
Lemma rsum_scal : forall f (a : R) n, rsum_ (fun i => a * f i) n = a * rsum_ f n.
Proof. intros. induction n; cbn; [ring|]. rewrite IHn. ring. Qed.
Lemma rsum_le : forall f g n, (forall i, f i <= g i) -> rsum_ f n <= rsum_ g n.
Proof. intros f g n H. induction n; cbn; [lra|]. specialize (H n). lra. Qed.
Lemma sum_deriv : forall (T T' : nat -> R -> R) (b : nat -> R) (c : nat -> R) (B : R) (F F' : R -> R) y,
  (forall n h, Rabs (T n (y + h) - T n y - h * T' n y) <= h * h * c n) -> (forall n, rsum_ c n <= B) ->
  (forall t, Un_cv (fun n => b n + rsum_ (fun i => T i t) n) (F t)) -> Un_cv (fun n => rsum_ (fun i => T' i y) n) (F' y) ->
  derivable_pt_lim F y (F' y).
Proof.
  intros T T' b c B F F' y HT HB HF HF'.
  assert (BN : 0 <= B) by (specialize (HB 0%nat); cbn in HB; lra).
  assert (M : forall h, Rabs (F (y + h) - F y - h * F' y) <= h * h * B).
  { intros h. apply (cv_bound (fun n => (b n + rsum_ (fun i => T i (y + h)) n) - (b n + rsum_ (fun i => T i y) n) - h * rsum_ (fun i => T' i y) n)).
    - apply (CV_minus _ (fun n => h * rsum_ (fun i => T' i y) n)); [apply CV_minus; apply HF|]. now apply cv_scal.
    - intros n. replace (b n + rsum_ (fun i => T i (y + h)) n - (b n + rsum_ (fun i => T i y) n) - h * rsum_ (fun i => T' i y) n) with (rsum_ (fun i => T i (y + h)) n - rsum_ (fun i => T i y) n - h * rsum_ (fun i => T' i y) n) by ring.
      rewrite rsum_lin. eapply Rle_trans; [apply (rsum_abs _ (fun i => h * h * c i)); intros i; apply HT|]. rewrite rsum_scal. apply Rmult_le_compat_l; [nra|apply HB]. }
  intros eps He. assert (P : 0 < eps / (B + 1)) by (apply Rdiv_lt_0_compat; lra). exists (mkposreal _ P). intros h Nh Hh. cbn in Hh. specialize (M h).
  replace ((F (y + h) - F y) / h - F' y) with ((F (y + h) - F y - h * F' y) * / h) by (field; exact Nh). rewrite Rabs_mult, Rabs_inv.
  assert (Ph := Rabs_pos_lt h Nh). assert (E2 : h * h = Rabs h * Rabs h) by (rewrite <- Rabs_mult, Rabs_right; [reflexivity|nra]). rewrite E2 in M.
  apply Rle_lt_trans with (Rabs h * B).
  - apply Rmult_le_reg_r with (Rabs h); [exact Ph|]. rewrite Rmult_assoc, Rinv_l, Rmult_1_r by lra. lra.
  - apply Rle_lt_trans with (Rabs h * (B + 1)); [nra|]. apply Rlt_le_trans with (eps / (B + 1) * (B + 1)); [apply Rmult_lt_compat_r; lra|]. right. field. lra.
Qed.
(** ** sum 1/(n+1/2)^2 *)
Definition q (n : nat) : R := / (INR n + / 2).
Lemma q_pos : forall n, 0 < q n <= 2.
Proof. intros n. assert (P := pos_INR n). unfold q. split; [apply Rinv_0_lt_compat; lra|]. replace 2 with (/ / 2) by field. apply Rinv_le_contravar; lra. Qed.
Lemma q2_sum : forall n, rsum_ (fun i => q i * q i) n <= 5.
Proof.
  assert (G : forall n, rsum_ (fun i => q i * q i) (S n) <= 5 - / INR (S n)).
  { induction n as [|n IH]; [cbn; unfold q; cbn; rewrite Rplus_0_l; lra|]. cbn [rsum_] in *. rewrite (S_INR (S n)). set (m := INR (S n)) in *.
    assert (P : 1 <= m) by (unfold m; rewrite S_INR; assert (A := pos_INR n); lra).
    assert (Q : q (S n) * q (S n) <= / m - / (m + 1)).
    { unfold q. fold m. rewrite <- Rinv_mult. replace (/ m - / (m + 1)) with (/ (m * (m + 1))) by (field; lra). apply Rinv_le_contravar; nra. }
    lra. }
  intros [|n]; [cbn; lra|]. specialize (G n). assert (P : 0 < / INR (S n)) by (apply Rinv_0_lt_compat, lt_0_INR; lia). lra.
Qed.
(** ** the terms *)
Definition z (n : nat) (y : R) : C := (line y + ofR (INR n))%C.
Lemma z_mod : forall n y, cmod (/ z n y)%C <= q n.
Proof. intros n y. unfold q. apply modinv_le; [assert (P := pos_INR n); lra|]. cbn. lra. Qed.
Lemma z_neq : forall n y, z n y <> c0.
Proof. intros n y E. assert (Q := f_equal Re E). cbn in Q. assert (P := pos_INR n). lra. Qed.
Lemma z_add : forall n y h, z n (y + h) = (z n y + mk 0 h)%C.
Proof. intros. apply C_eq; cbn; ring. Qed.
Lemma mod_w : forall h, cmod (mk 0 h) = Rabs h.
Proof. intros. unfold cmod, norm2; cbn. replace (0 * 0 + h * h) with (Rsqr h) by (unfold Rsqr; ring). apply sqrt_Rsqr_abs. Qed.
Lemma w2 : forall h, cmod (mk 0 h * mk 0 h)%C = h * h.
Proof. intros. rewrite cmod_mul, mod_w, <- Rabs_mult. apply Rabs_right. nra. Qed.
(** 1/z *)
Lemma rem1 : forall n y h, cmod (/ z n (y + h) - / z n y + mk 0 h * (/ z n y) ^ 2)%C <= h * h * (2 * (q n * q n)).
Proof.
  intros n y h. set (w := mk 0 h). set (a := (/ z n y)%C). set (b := (/ z n (y + h))%C).
  assert (E : (b - a + w * a ^ 2 = w * w * (a ^ 2 * b))%C).
  { unfold a, b. assert (Ez : z n (y + h) = (z n y + w)%C) by apply z_add. assert (N := z_neq n (y + h)). rewrite Ez in N |- *. field. split; [exact N|apply z_neq]. }
  rewrite E, cmod_mul. unfold w at 1 2. rewrite w2. apply Rmult_le_compat_l; [nra|]. cbn [cpow]. rewrite !cmod_mul, cmod_1, Rmult_1_r.
  assert (A := z_mod n y). assert (B := z_mod n (y + h)). fold a in A. fold b in B. assert (A0 := cmod_nonneg a). assert (B0 := cmod_nonneg b). assert (Q := q_pos n).
  assert (AA : cmod a * cmod a <= q n * q n) by (apply Rmult_le_compat; lra). nra.
Qed.
(** 1/z^2 *)
Lemma rem2 : forall n y h, cmod ((/ z n (y + h)) ^ 2 - (/ z n y) ^ 2 + ofR 2 * (mk 0 h * (/ z n y) ^ 3))%C <= h * h * (12 * (q n * q n)).
Proof.
  intros n y h. set (w := mk 0 h). set (a := (/ z n y)%C). set (b := (/ z n (y + h))%C).
  assert (E : (b ^ 2 - a ^ 2 + ofR 2 * (w * a ^ 3) = w * w * (a ^ 2 * b ^ 2 + ofR 2 * (a ^ 3 * b)))%C).
  { unfold a, b. assert (Ez : z n (y + h) = (z n y + w)%C) by apply z_add. assert (N := z_neq n (y + h)). rewrite Ez in N |- *.
    replace (ofR 2) with (c1 + c1)%C by (apply C_eq; cbn; ring). field. split; [exact N|apply z_neq]. }
  rewrite E, cmod_mul. unfold w at 1 2. rewrite w2. apply Rmult_le_compat_l; [nra|]. eapply Rle_trans; [apply cmod_triang|]. rewrite !cmod_mul, !cmod_pow, cmod_ofR, Rabs_right by lra.
  assert (A := z_mod n y). assert (B := z_mod n (y + h)). fold a in A. fold b in B. assert (A0 := cmod_nonneg a). assert (B0 := cmod_nonneg b). assert (Q := q_pos n). cbn [pow].
  set (u := cmod a) in *. set (v := cmod b) in *. assert (AA : 0 <= u * u <= q n * q n) by (split; [nra|apply Rmult_le_compat; lra]). assert (BB : 0 <= v * v <= 4) by (split; [nra|]; assert (v <= 2) by lra; nra).
  assert (UV : 0 <= u * v <= 4) by (split; [nra|]; assert (u <= 2) by lra; assert (v <= 2) by lra; nra).
  assert (X1 : u * u * (v * v) <= q n * q n * 4) by (apply Rmult_le_compat; lra). assert (X2 : u * u * (u * v) <= q n * q n * 4) by (apply Rmult_le_compat; lra). nra.
Qed.
(** 1/z^3 *)
Lemma lip3 : forall n y h, cmod ((/ z n (y + h)) ^ 3 - (/ z n y) ^ 3)%C <= Rabs h * (12 * (q n * q n)).
Proof.
  intros n y h. set (w := mk 0 h). set (a := (/ z n y)%C). set (b := (/ z n (y + h))%C).
  assert (E : (b ^ 3 - a ^ 3 = - w * (a ^ 2 * b ^ 2 + a ^ 3 * b + a * b ^ 3))%C).
  { unfold a, b. assert (Ez : z n (y + h) = (z n y + w)%C) by apply z_add. assert (N := z_neq n (y + h)). rewrite Ez in N |- *. field. split; [exact N|apply z_neq]. }
  rewrite E, cmod_mul, cmod_opp. unfold w at 1. rewrite mod_w. apply Rmult_le_compat_l; [apply Rabs_pos|].
  eapply Rle_trans; [apply cmod_triang|]. eapply Rle_trans; [apply Rplus_le_compat_r, cmod_triang|]. rewrite !cmod_mul, !cmod_pow.
  assert (A := z_mod n y). assert (B := z_mod n (y + h)). fold a in A. fold b in B. assert (A0 := cmod_nonneg a). assert (B0 := cmod_nonneg b). assert (Q := q_pos n). cbn [pow].
  set (u := cmod a) in *. set (v := cmod b) in *. assert (AA : 0 <= u * u <= q n * q n) by (split; [nra|apply Rmult_le_compat; lra]). assert (BB : 0 <= v * v <= q n * q n) by (split; [nra|apply Rmult_le_compat; lra]).
  assert (BB4 : v * v <= 4) by (assert (v <= 2) by lra; nra). assert (UV : 0 <= u * v <= 4) by (split; [nra|]; assert (u <= 2) by lra; assert (v <= 2) by lra; nra).
  assert (X1 : u * u * (v * v) <= q n * q n * 4) by (apply Rmult_le_compat; lra). assert (X2 : u * u * (u * v) <= q n * q n * 4) by (apply Rmult_le_compat; lra). assert (X3 : v * v * (u * v) <= q n * q n * 4) by (apply Rmult_le_compat; lra). nra.
Qed.
Lemma cinv_pow : forall x n, x <> c0 -> (/ x ^ n = (/ x) ^ n)%C.
Proof.
  intros x n N. induction n as [|n IHn]; cbn [cpow]; [apply C_eq; cbn; unfold norm2; cbn; field|]. rewrite <- IHn. field. split; [now apply cpow_neq|exact N].
Qed.
Lemma series_Re : forall y K N, Re (series (line y) K N) = rsum_ (fun i => Re ((/ z i y) ^ S K)%C) N.
Proof. intros y K N. induction N as [|N IH]; [reflexivity|]. cbn [series rsum_]. fold (z N y). rewrite cinv_pow by apply z_neq. rewrite <- IH. reflexivity. Qed.
Lemma series_Im : forall y K N, Im (series (line y) K N) = rsum_ (fun i => Im ((/ z i y) ^ S K)%C) N.
Proof. intros y K N. induction N as [|N IH]; [reflexivity|]. cbn [series rsum_]. fold (z N y). rewrite cinv_pow by apply z_neq. rewrite <- IH. reflexivity. Qed.
(** ** digamma exists *)
Lemma ln_le_x : forall x, -1 < x -> ln (1 + x) <= x.
Proof.
  intros x H. destruct (Req_dec x 0) as [->|N]; [rewrite Rplus_0_r, ln_1; lra|]. assert (E := exp_ineq1 x N). rewrite <- (ln_exp x) at 2. left. apply ln_increasing; lra.
Qed.
Lemma ln_step : forall n, (1 <= n)%nat -> / INR (S n) <= ln (INR (S n)) - ln (INR n) <= / INR n.
Proof.
  intros n H. assert (P : 1 <= INR n) by (change 1 with (INR 1); now apply le_INR). rewrite S_INR. set (m := INR n) in *. split.
  - assert (L := ln_le_x (- / (m + 1))). assert (I : / (m + 1) < 1) by (rewrite <- Rinv_1; apply Rinv_lt_contravar; lra).
    assert (E : 1 + - / (m + 1) = m * / (m + 1)) by (field; lra). rewrite E in L. rewrite ln_mult, ln_Rinv in L by (try apply Rinv_0_lt_compat; lra). specialize (L ltac:(lra)). lra.
  - assert (L := ln_le_x (/ m)). assert (I : 0 < / m) by (apply Rinv_0_lt_compat; lra). assert (E : 1 + / m = (m + 1) * / m) by (field; lra). rewrite E in L. rewrite ln_mult, ln_Rinv in L by lra. specialize (L ltac:(lra)). lra.
Qed.
Lemma digamma_conv : forall U, 0 <= Re U -> U <> c0 -> { L | is_digamma U L }.
Proof.
  intros U HU NU. apply C_complete. set (s := fun n => (ofR (ln (INR n)) - series U 0 n)%C). set (k := 1 + cmod U). assert (Pk : 1 <= k) by (unfold k; assert (Q := cmod_nonneg U); lra).
  assert (ST : forall n, (1 <= n)%nat -> cmod (s (S n) - s n)%C <= k * / (INR n * INR n)).
  { intros n Hn. destruct (ln_step n Hn) as (L1 & L2). assert (P : 1 <= INR n) by (change 1 with (INR 1); now apply le_INR). unfold s. cbn [series cpow]. set (d := ln (INR (S n)) - ln (INR n)) in *. rewrite S_INR in L1. set (m := INR n) in *.
    set (W := (U + ofR m)%C).
    assert (HW : m <= Re W) by (unfold W; cbn; lra). assert (NW : W <> c0) by (intros E; rewrite E in HW; cbn in HW; lra).
    assert (IW := modinv_le W m ltac:(lra) HW).
    assert (Nm : ofR m <> c0) by (apply ofR_neq; lra).
    assert (E : (ofR (ln (INR (S n))) - (series U 0 n + / (W * c1)) - (ofR (ln m) - series U 0 n) = ofR (d - / m) + U * (/ ofR m) * / W)%C).
    { replace (W * c1)%C with W by ring. unfold d. fold m. rewrite !ofR_sub, ofR_inv by lra. unfold W. field. split; [exact NW|exact Nm]. }
    rewrite E. eapply Rle_trans; [apply cmod_triang|]. rewrite cmod_ofR, !cmod_mul, cmod_inv, cmod_ofR, (Rabs_right m) by (auto; lra).
    assert (IM : 0 < / m) by (apply Rinv_0_lt_compat; lra).
    assert (D1 : Rabs (d - / m) <= / (m * m)).
    { apply Rabs_le. split; [|assert (0 < / (m * m)) by (apply Rinv_0_lt_compat; nra); lra]. apply Rle_trans with (/ (m + 1) - / m); [|lra].
      replace (/ (m + 1) - / m) with (- / (m * (m + 1))) by (field; lra). apply Ropp_le_contravar. apply Rinv_le_contravar; nra. }
    assert (D2 : cmod U * / m * cmod (/ W)%C <= cmod U * / (m * m)).
    { rewrite Rinv_mult, Rmult_assoc. apply Rmult_le_compat_l; [apply cmod_nonneg|]. apply Rmult_le_compat_l; lra. }
    unfold k. lra. }
  assert (TS : forall n p, (2 <= n)%nat -> cmod (s (n + p)%nat - s n)%C <= k * (/ (INR n - 1) - / (INR (n + p) - 1))).
  { intros n p Hn. induction p as [|p IH]; [rewrite Nat.add_0_r; replace (s n - s n)%C with c0 by ring; rewrite cmod_0; lra|].
    replace (n + S p)%nat with (S (n + p)) by lia. replace (s (S (n + p)) - s n)%C with ((s (S (n + p)) - s (n + p)%nat) + (s (n + p)%nat - s n))%C by ring.
    eapply Rle_trans; [apply cmod_triang|]. specialize (ST (n + p)%nat ltac:(lia)). rewrite S_INR. set (m := INR (n + p)) in *. assert (P : 2 <= m) by (unfold m; change 2 with (INR 2); apply le_INR; lia).
    assert (Q : / (m * m) <= / (m - 1) - / (m + 1 - 1)) by (replace (/ (m - 1) - / (m + 1 - 1)) with (/ ((m - 1) * m)) by (field; lra); apply Rinv_le_contravar; nra). nra. }
  intros eps He. destruct (INR_unbounded (Rmax 2 (1 + k / eps))) as (N & HN). assert (A1 := Rmax_l 2 (1 + k / eps)). assert (A2 := Rmax_r 2 (1 + k / eps)).
  assert (PE : 0 < k / eps) by (apply Rdiv_lt_0_compat; lra). exists N. assert (N2 : (2 <= N)%nat) by (apply INR_le; change (INR 2) with 2; lra).
  assert (G : forall n m, (N <= n)%nat -> (n <= m)%nat -> cmod (s n - s m)%C < eps).
  { intros n m Hn Hm. rewrite cmod_sub_sym. replace m with (n + (m - n))%nat by lia. eapply Rle_lt_trans; [apply TS; lia|]. assert (LN : INR N <= INR n) by now apply le_INR. assert (LM : INR n <= INR (n + (m - n))) by (apply le_INR; lia).
    assert (X0 : 0 < / (INR (n + (m - n)) - 1)) by (apply Rinv_0_lt_compat; lra). assert (X1 : / (INR n - 1) < / (k / eps)) by (apply Rinv_lt_contravar; [apply Rmult_lt_0_compat|]; lra).
    replace (/ (k / eps)) with (eps / k) in X1 by (field; lra). apply Rle_lt_trans with (k * / (INR n - 1)); [apply Rmult_le_compat_l; lra|]. apply Rlt_le_trans with (k * (eps / k)); [apply Rmult_lt_compat_l; lra|]. right. field. lra. }
  intros n m Hn Hm. destruct (le_lt_dec n m) as [L|L]; [now apply G|]. rewrite cmod_sub_sym. apply G; lia.
Qed.
(** ** The contract holds for the true functions *)
Section Psi.
Variables psi psi1 psi2 : R -> C.
Hypothesis H0 : forall y, is_digamma (line y) (psi y).
Hypothesis H1 : forall y, is_polygamma (line y) 1 (psi1 y).
Hypothesis H2 : forall y, is_polygamma (line y) 2 (psi2 y).
Lemma psi_cv : forall y, Un_cv (fun n => ln (INR n) + rsum_ (fun i => - Re (/ z i y)%C) n) (Re (psi y)).
Proof.
  intros y. refine (cv_ext _ _ _ _ (limit_Re _ _ (H0 y))). intros n. change (Re (ofR (ln (INR n)) - series (line y) 0 n)%C) with (ln (INR n) - Re (series (line y) 0 n)).
  rewrite series_Re. unfold Rminus. f_equal. rewrite (rsum_ext (fun i => - Re (/ z i y)%C) (fun i => -1 * Re ((/ z i y) ^ 1)%C)); [rewrite rsum_scal; ring|]. intros i. replace ((/ z i y) ^ 1)%C with (/ z i y)%C by (cbn [cpow]; ring). ring.
Qed.
Lemma psi1_cv : forall y, Un_cv (fun n => 0 + rsum_ (fun i => Im ((/ z i y) ^ 2)%C) n) (Im (psi1 y)).
Proof.
  intros y. refine (cv_ext _ _ _ _ (limit_Im _ _ (H1 y))). intros n. rewrite <- series_Im. cbn. ring.
Qed.
Lemma psi2_cv : forall y, Un_cv (fun n => rsum_ (fun i => -2 * Re ((/ z i y) ^ 3)%C) n) (Re (psi2 y)).
Proof.
  intros y. refine (cv_ext _ _ _ _ (limit_Re _ _ (H2 y))). intros n. rewrite rsum_scal, <- series_Re. cbn. ring.
Qed.
Theorem C63_contract : psi_contract (fun y => Re (psi y)) (fun y => Im (psi1 y)) (fun y => Re (psi2 y)).
Proof.
  constructor.
  - intros y. apply (UL_sequence _ _ _ (psi_cv (- y))). refine (cv_ext _ _ _ _ (psi_cv y)). intros n. f_equal. apply rsum_ext. intros i. cbn. unfold norm2; cbn. f_equal. f_equal. ring.
  - intros y. assert (NI : Un_cv (fun n => rsum_ (fun i => - Im ((/ z i y) ^ 2)%C) n) (- Im (psi1 y))).
    { refine (cv_ext _ _ _ _ (CV_opp _ _ (psi1_cv y))). intros n. unfold opp_seq. rewrite (rsum_ext (fun i => - Im ((/ z i y) ^ 2)%C) (fun i => -1 * Im ((/ z i y) ^ 2)%C)) by (intros; ring). rewrite rsum_scal. ring. }
    refine (sum_deriv (fun n t => - Re (/ z n t)%C) (fun n t => - Im ((/ z n t) ^ 2)%C) (fun n => ln (INR n)) (fun n => 2 * (q n * q n)) 10 (fun t => Re (psi t)) (fun t => - Im (psi1 t)) y _ _ psi_cv NI).
    + intros n h. eapply Rle_trans; [|exact (rem1 n y h)]. eapply Rle_trans; [|apply cmod_Re]. right.
      cbv beta; set (a := ((/ z n y) ^ 2)%C). cbn [Re Im cadd csub cmul]. rewrite <- Rabs_Ropp. f_equal. ring.
    + intros n. rewrite rsum_scal. assert (Q := q2_sum n). lra.
  - intros y. refine (sum_deriv (fun n t => Im ((/ z n t) ^ 2)%C) (fun n t => -2 * Re ((/ z n t) ^ 3)%C) (fun n => 0) (fun n => 12 * (q n * q n)) 60 (fun t => Im (psi1 t)) (fun t => Re (psi2 t)) y _ _ psi1_cv (psi2_cv y)).
    + intros n h. eapply Rle_trans; [|exact (rem2 n y h)]. eapply Rle_trans; [|apply cmod_Im]. right.
      cbv beta; set (a := ((/ z n y) ^ 3)%C). set (b := ((/ z n y) ^ 2)%C). set (c := ((/ z n (y + h)) ^ 2)%C). cbn [Re Im cadd csub cmul ofR]. f_equal. ring.
    + intros n. rewrite rsum_scal. assert (Q := q2_sum n). lra.
  - intros y eps He. exists (eps / 121). split; [lra|]. intros t Ht.
    assert (B : Rabs (Re (psi2 t) - Re (psi2 y)) <= Rabs (t - y) * 120).
    { apply (cv_bound _ _ _ (CV_minus _ _ _ _ (psi2_cv t) (psi2_cv y))). intros n. rewrite !rsum_scal.
      replace (-2 * rsum_ (fun i => Re ((/ z i t) ^ 3)%C) n - -2 * rsum_ (fun i => Re ((/ z i y) ^ 3)%C) n) with (-2 * (rsum_ (fun i => Re ((/ z i t) ^ 3)%C) n - rsum_ (fun i => Re ((/ z i y) ^ 3)%C) n - 0 * rsum_ (fun i => 0) n)) by ring.
      rewrite rsum_lin, Rabs_mult, Rabs_left by lra.
      assert (S : Rabs (rsum_ (fun i => Re ((/ z i t) ^ 3)%C - Re ((/ z i y) ^ 3)%C - 0 * 0) n) <= rsum_ (fun i => Rabs (t - y) * (12 * (q i * q i))) n).
      { apply rsum_abs. intros i. assert (L := lip3 i y (t - y)). replace (y + (t - y)) with t in L by ring. eapply Rle_trans; [|exact L]. eapply Rle_trans; [|apply cmod_Re]. right. cbn [Re csub]. f_equal. ring. }
      rewrite !rsum_scal in S. assert (Q := q2_sum n). assert (P := Rabs_pos (t - y)). nra. }
    assert (P := Rabs_pos (t - y)). lra.
Qed.
End Psi.
(** The three functions exist on the line Re z = 1/2. *)
Theorem C63_exists : { psi : R -> C & { psi1 : R -> C & { psi2 : R -> C |
  forall y, is_digamma (line y) (psi y) /\ is_polygamma (line y) 1 (psi1 y) /\ is_polygamma (line y) 2 (psi2 y) } } }.
Proof.
  assert (N : forall y, line y <> c0) by (intros y E; assert (Q := f_equal Re E); cbn in Q; lra). assert (P : forall y, 0 <= Re (line y)) by (intros; cbn; lra).
  exists (fun y => proj1_sig (digamma_conv (line y) (P y) (N y))).
  exists (fun y => (ofR ((- 1) ^ 2 * INR (fact 1)) * proj1_sig (series_conv (line y) 1 (le_n 1) (P y)))%C).
  exists (fun y => (ofR ((- 1) ^ 3 * INR (fact 2)) * proj1_sig (series_conv (line y) 2 (le_S _ _ (le_n 1)) (P y)))%C).
  intros y. split; [exact (proj2_sig (digamma_conv (line y) (P y) (N y)))|]. split; apply limit_scal.
  - exact (proj2_sig (series_conv (line y) 1 (le_n 1) (P y))).
  - exact (proj2_sig (series_conv (line y) 2 (le_S _ _ (le_n 1)) (P y))).
Qed.
(** diff_phi and diff2_phi of the code are within 1e-17 of the first and second derivative of phi. *)
Theorem C63_derivatives : forall (psi : R -> C) clog Dp Dm, (forall y, is_digamma (line y) (psi y)) ->
  exists d1 d2 : R -> R, (forall x, derivable_pt_lim (fun t => phi (fun y => Re (psi y)) t Dp Dm) x (d1 x)) /\ (forall x, derivable_pt_lim d1 x (d2 x)) /\
  forall x, Rabs (diff_phi (fun y => Im (polygamma clog (line y) 1)) x - d1 x) <= 1 / 10 ^ 17 /\ Rabs (diff2_phi (fun y => Re (polygamma clog (line y) 2)) x - d2 x) <= 1 / 10 ^ 17.
Proof.
  intros psi clog Dp Dm H0. destruct C63_exists as (psi' & psi1 & psi2 & HX).
  assert (PC := C63_contract psi psi1 psi2 H0 (fun y => proj1 (proj2 (HX y))) (fun y => proj2 (proj2 (HX y)))).
  exists (diff_phi (fun y => Im (psi1 y))), (diff2_phi (fun y => Re (psi2 y))).
  split; [exact (phi_d1 _ _ _ PC Dp Dm)|]. split; [exact (phi_d2 _ _ _ PC)|]. intros x.
  assert (PP := PI2_3_2). unfold PI2 in PP. assert (P6 : 6 <= 2 * PI) by lra. set (y := x / (2 * PI)). assert (N : line y <> c0) by (intros E; assert (Q := f_equal Re E); cbn in Q; lra).
  assert (B : forall K L, (1 <= K <= 4)%nat -> is_polygamma (line y) K L -> cmod (polygamma clog (line y) K - L)%C <= 2 / 10 ^ 17).
  { intros K L HK HL. destruct (C62_polygamma clog (line y) K HK ltac:(cbn; lra) N) as (L' & HL' & BL). now rewrite (limit_unique _ _ _ HL HL'). }
  destruct (HX y) as (_ & I1 & I2). assert (B1 := B 1%nat _ ltac:(lia) I1). assert (B2 := B 2%nat _ ltac:(lia) I2). split.
  - unfold diff_phi. fold y. rewrite <- Rmult_minus_distr_l, Rabs_mult. assert (A := cmod_Im (polygamma clog (line y) 1 - psi1 y)%C). cbn [Im csub] in A.
    assert (W : 0 <= 1 / (2 * PI) <= / 2). { split; [apply Rmult_le_pos; [lra|left; apply Rinv_0_lt_compat; lra]|]. unfold Rdiv. rewrite Rmult_1_l. apply Rinv_le_contravar; lra. }
    rewrite (Rabs_right (1 / (2 * PI))) by lra. apply Rle_trans with (/ 2 * (2 / 10 ^ 17)); [|lra]. apply Rmult_le_compat; try lra. apply Rabs_pos.
  - unfold diff2_phi. fold y. rewrite <- Rmult_minus_distr_l, Rabs_mult. assert (A := cmod_Re (polygamma clog (line y) 2 - psi2 y)%C). cbn [Re csub] in A.
    assert (W : 0 <= 1 / (2 * PI * (2 * PI)) <= / 2). { split; [apply Rmult_le_pos; [lra|left; apply Rinv_0_lt_compat; nra]|]. unfold Rdiv. rewrite Rmult_1_l. apply Rinv_le_contravar; nra. }
    rewrite (Rabs_right (1 / (2 * PI * (2 * PI)))) by lra. apply Rle_trans with (/ 2 * (2 / 10 ^ 17)); [|lra]. apply Rmult_le_compat; try lra. apply Rabs_pos.
Qed.
(** The doubly degenerate branches of the RTD integrals with the code's polygamma are within 3e-17 of the limits of the closed formulas with the true digamma function. *)
Lemma fermi01 : forall x, 0 <= fermi_func x <= 1.
Proof.
  intros x. destruct (Rle_lt_dec x cut) as [L|L].
  - rewrite fermi_below by exact L. unfold fermi. assert (E := exp_pos x). split; [left; apply Rinv_0_lt_compat; lra|]. rewrite <- Rinv_1. apply Rinv_le_contravar; lra.
  - rewrite fermi_above by exact L. lra.
Qed.
Theorem C63_degenerate : forall (psi : R -> C) clog p1 p2 E1 Dp Dm, (forall y, is_digamma (line y) (psi y)) -> Rabs p1 = 1 -> Rabs p2 = 1 ->
  let psi_re := fun y => Re (psi y) in let psi1_im := fun y => Im (polygamma clog (line y) 1) in let psi2_re := fun y => Re (polygamma clog (line y) 2) in
  (E1 <= cut / 2 -> exists l, tends (R * R) (at2 (fun d e => d <> 0 /\ e <> E1) 0 E1) (fun x => direct (fun t => phi psi_re t Dp Dm) p1 p2 E1 (fst x) (snd x)) l /\
     Rabs (D_equal_T psi_re psi1_im psi2_re p1 p2 E1 0 E1 Dp Dm - l) <= 3 / 10 ^ 17) /\
  (Rabs E1 <= cut -> exists l, tends (R * R) (at2 (fun d e => d <> 0 /\ d - E1 - e <> 0) 0 (- E1)) (fun x => exchange (fun t => phi psi_re t Dp Dm) p1 p2 E1 (fst x) (snd x)) l /\
     Rabs (X_equal_T psi_re psi1_im psi2_re p1 p2 E1 0 (- E1) Dp Dm - l) <= 3 / 10 ^ 17).
Proof.
  intros psi clog p1 p2 E1 Dp Dm H0 A1 A2 psi_re psi1_im psi2_re. destruct C63_exists as (psi' & q1 & q2 & HX).
  assert (PC := C63_contract psi q1 q2 H0 (fun y => proj1 (proj2 (HX y))) (fun y => proj2 (proj2 (HX y)))). fold psi_re in PC.
  destruct (C63_derivatives psi clog Dp Dm H0) as (d1 & d2 & G1 & G2 & G3). fold psi_re psi1_im psi2_re in G1, G2, G3.
  assert (E1' : forall x, d1 x = diff_phi (fun y => Im (q1 y)) x) by (intros x; exact (uniqueness_limite _ _ _ _ (G1 x) (phi_d1 _ _ _ PC Dp Dm x))).
  assert (E2' : forall x, d2 x = diff2_phi (fun y => Re (q2 y)) x).
  { intros x. refine (uniqueness_limite _ _ _ _ (G2 x) _). refine (deriv_ext _ _ _ _ _ (fun t => eq_sym (E1' t)) eq_refl (phi_d2 _ _ _ PC x)). }
  assert (B1 : forall x, Rabs (diff_phi psi1_im x - diff_phi (fun y => Im (q1 y)) x) <= 1 / 10 ^ 17) by (intros x; rewrite <- E1'; apply G3).
  assert (B2 : forall x, Rabs (diff2_phi psi2_re x - diff2_phi (fun y => Re (q2 y)) x) <= 1 / 10 ^ 17) by (intros x; rewrite <- E2'; apply G3).
  assert (PM : forall p, Rabs p = 1 -> p = 1 \/ p = - (1)) by (intros p Hp; unfold Rabs in Hp; destruct (Rcase_abs p); [right|left]; lra).
  assert (BB : forall x e, Rabs x <= e -> - e <= x <= e) by (intros x e Hx; assert (U := Rle_abs x); assert (V := Rle_abs (- x)); rewrite Rabs_Ropp in V; lra).
  assert (C1 := BB _ _ (B1 E1)). assert (C2 := BB _ _ (B1 (- E1))). assert (C3 := BB _ _ (B2 E1)). assert (F1 := fermi01 E1). assert (F2 := fermi01 (- E1)).
  split; intros HE.
  - exists (D_equal_T psi_re (fun y => Im (q1 y)) (fun y => Re (q2 y)) p1 p2 E1 0 E1 Dp Dm). split; [exact (C61_direct_both _ _ _ PC p1 p2 E1 Dp Dm HE)|].
    unfold D_equal_T. rewrite Rminus_eq_0. destruct (Rlt_dec (Rabs 0) E_MIN) as [_|Q]; [|elim Q; apply zero_in].
    set (a := diff_phi psi1_im E1) in *. set (a' := diff_phi (fun y => Im (q1 y)) E1) in *. set (b := diff_phi psi1_im (- E1)) in *. set (b' := diff_phi (fun y => Im (q1 y)) (- E1)) in *.
    set (c := diff2_phi psi2_re E1) in *. set (c' := diff2_phi (fun y => Re (q2 y)) E1) in *. set (f := fermi_func E1) in *.
    match goal with |- Rabs ?x <= _ => replace x with (p1 * p2 * (- (c - c') - (b - b') * f - / 2 * (a - a')) + / 2 * p2 * (a - a')) by ring end.
    apply Rabs_le. destruct (PM p1 A1) as [-> | ->], (PM p2 A2) as [-> | ->]; split; nra.
  - exists (X_equal_T psi_re (fun y => Im (q1 y)) (fun y => Re (q2 y)) p1 p2 E1 0 (- E1) Dp Dm). split; [exact (C61_exchange_both _ _ _ PC p1 p2 E1 Dp Dm HE)|].
    unfold X_equal_T. replace (0 - E1 - - E1) with 0 by ring. destruct (Rlt_dec (Rabs 0) E_MIN) as [_|Q]; [|elim Q; apply zero_in].
    set (a := diff_phi psi1_im E1) in *. set (a' := diff_phi (fun y => Im (q1 y)) E1) in *. set (b := diff_phi psi1_im (- E1)) in *. set (b' := diff_phi (fun y => Im (q1 y)) (- E1)) in *.
    set (c := diff2_phi psi2_re E1) in *. set (c' := diff2_phi (fun y => Re (q2 y)) E1) in *. set (f := fermi_func E1) in *. set (f' := fermi_func (- E1)) in *.
    match goal with |- Rabs ?x <= _ => replace x with (p1 * p2 * ((c - c') + f * (b - b') + (a - a') * f')) by ring end.
    apply Rabs_le. destruct (PM p1 A1) as [-> | ->], (PM p2 A2) as [-> | ->]; split; nra.
Qed.
Example C63_case : exists psi : R -> C, (forall y, is_digamma (line y) (psi y)) /\ exists d1 : R -> R,
  (forall x, derivable_pt_lim (fun t => phi (fun y => Re (psi y)) t 1 1) x (d1 x)) /\ d1 0 = 0 /\ forall x, Rabs (diff_phi (fun y => Im (polygamma (fun z => z) (line y) 1)) x - d1 x) <= 1 / 10 ^ 17.
Proof.
  destruct C63_exists as (psi & psi1 & psi2 & HX). exists psi. split; [intros y; apply HX|].
  destruct (C63_derivatives psi (fun z => z) 1 1 (fun y => proj1 (HX y))) as (d1 & d2 & A & _ & B). exists d1. split; [exact A|]. split; [|intros x; apply B].
  assert (PC := C63_contract psi psi1 psi2 (fun y => proj1 (HX y)) (fun y => proj1 (proj2 (HX y))) (fun y => proj2 (proj2 (HX y)))).
  assert (O := f1_odd _ d1 (phi_even _ _ _ PC 1 1) A 0). rewrite Ropp_0 in O. lra.
Qed.
Print Assumptions C63_contract.
Print Assumptions C63_exists.
Print Assumptions C63_derivatives.
Print Assumptions C63_degenerate.
