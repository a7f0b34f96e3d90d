(** Property C74, two ends of the change of units: the amplitudes construct_Tba builds, and the integrals of the RTD approach. *)
From Coq Require Import String List Arith Lia ZArith Bool Ring Reals Lra Classical_Prop.
From Verif Require Import Base Bits Indexing IndexingProofs RemoveProofs PropIndexing CRing Fock Operators OperatorsProofs PropOperators PropKernel SpecFunc RTDInt RTDGen.
Import ListNotations.
Open Scope nat_scope.
Local Notation length := List.length.

Section Amplitudes.
Variable K : CRing.
Notation C := (Cx K).
Add Ring CamU : (rth C).
Local Open Scope rng_scope.
Variable rho_ : nat -> C.
Definition turned_leads (tleads : list ((nat * nat) * C)) : list ((nat * nat) * C) := map (fun e => (fst e, rho_ (fst (fst e)) * snd e)) tleads.
Local Notation N si := (PropKernel.charge_of si).
Theorem C74_amplitudes : forall n name ops si nleads tleads, reachable_si n name ops si ->
  (forall l i t, In ((l, i), t) tleads -> (l < nleads /\ i < n)%nat) ->
  exists T T', construct_Tba K si nleads tleads zeros = Some T /\ construct_Tba K si nleads (turned_leads tleads) zeros = Some T' /\
    forall l a b, (a < si_nmany si)%nat -> (b < si_nmany si)%nat ->
      T' (l, a, b) = (if (N si b <? N si a)%nat then rho_ l else conj (rho_ l)) * T (l, a, b).
Proof.
  intros n name ops si nleads tleads RS HT. pose proof (reachable_correct _ _ _ _ RS) as RC.
  destruct (C13_tunnelling K n name ops si nleads tleads zeros RS HT) as (T & E & H).
  assert (HT' : forall l i t, In ((l, i), t) (turned_leads tleads) -> (l < nleads /\ i < n)%nat).
  { intros l i t Hi. unfold turned_leads in Hi. apply (proj1 (in_map_iff _ _ _)) in Hi. destruct Hi as ([[l0 i0] t0] & Q & Hi). simpl in Q. injection Q as <- <- _. now apply (HT _ _ t0). }
  destruct (C13_tunnelling K n name ops si nleads (turned_leads tleads) zeros RS HT') as (T' & E' & H').
  exists T, T'. split; [exact E|]. split; [exact E'|]. intros l a b Ha Hb.
  destruct (gs_ex _ _ _ RC a Ha) as (sa & Ea & La). destruct (gs_ex _ _ _ RC b Hb) as (sb & Eb & Lb).
  rewrite (H l a b sa sb), (H' l a b sa sb) by auto. unfold zeros, tunnel_op. rewrite !osum_mel. unfold turned_leads. rewrite rsum_map.
  unfold PropKernel.charge_of. rewrite Ea, Eb, <- (ones_electrons sa), <- (ones_electrons sb).
  match goal with |- 0 + rsum ?f _ = ?c * (0 + rsum ?g _) => assert (X : rsum f tleads = c * rsum g tleads); [|rewrite X; ring] end.
  rewrite <- rsum_mul_l. apply rsum_ext. intros [[l0 i] t] He. cbn [fst snd]. destruct (HT _ _ _ He) as (Hl & Hi).
  destruct (Nat.eqb_spec l0 l) as [->|]; [|unfold mel, ozero; ring]. unfold mel, oplus, oscale.
  assert (UP : ones sa <> S (ones sb) -> cre C i (basis C sb) sa = 0).
  { intros D. change (mel C (word C [(true, i)]) sa sb = 0). apply word_charge; [lia| |simpl; lia]. intros x j [Ej|[]]. injection Ej as <- <-. lia. }
  assert (DN : S (ones sa) <> ones sb -> ann C i (basis C sb) sa = 0).
  { intros D. change (mel C (word C [(false, i)]) sa sb = 0). apply word_charge; [lia| |simpl; lia]. intros x j [Ej|[]]. injection Ej as <- <-. lia. }
  destruct (Nat.ltb_spec (ones sb) (ones sa)).
  - rewrite DN by lia. ring.
  - rewrite UP by lia. rewrite conj_mul. ring.
Qed.
End Amplitudes.
Print Assumptions C74_amplitudes.

(** ** The integrals of the RTD approach *)
Open Scope R_scope.
Local Notation Cr := (Cx RRing).

Section Integrals.
Variables (psi psi1 : Cr -> Cr) (psi_re psi1_im psi2_re : R -> R).
Add Ring CrUI : (rth (Cx RRing)).
Local Notation ID := (integralD_any psi psi1 psi_re psi1_im psi2_re).
Local Notation IX := (integralX_any psi psi_re psi1_im psi2_re).
(** the code compares T2-T1 with fixed numbers: below them the second temperature is not looked at *)
Theorem C74_below_threshold : forall p eta E1 E2 E3 T1 T2 T2' mu1 mu2 D bR,
  (Rabs (T2 - T1) < 1 / 10 ^ 5 -> Rabs (T2' - T1) < 1 / 10 ^ 5 ->
    ID p eta E1 E2 E3 T1 T2 mu1 mu2 D bR false = ID p eta E1 E2 E3 T1 T2' mu1 mu2 D bR false) /\
  (Rabs (T2 - T1) < 1 / 10 ^ 10 -> Rabs (T2' - T1) < 1 / 10 ^ 10 ->
    IX p eta E1 E2 E3 T1 T2 mu1 mu2 D bR false = IX p eta E1 E2 E3 T1 T2' mu1 mu2 D bR false).
Proof.
  intros. unfold integralD_any, integralX_any. split; intros H H'.
  - destruct (Rlt_dec (Rabs (T2 - T1)) TMIN_D) as [|W]; [|contradiction]. destruct (Rlt_dec (Rabs (T2' - T1)) TMIN_D) as [|W]; [|contradiction]. reflexivity.
  - destruct (Rlt_dec (Rabs (T2 - T1)) TMIN_X) as [|W]; [|contradiction]. destruct (Rlt_dec (Rabs (T2' - T1)) TMIN_X) as [|W]; [|contradiction]. reflexivity.
Qed.

(** as long as both units are on the same side of the threshold, the integrals scale like 1/energy *)
Lemma ratio2 : forall s x t, s <> 0 -> (s * x) / (s * t) = x / t.
Proof. intros s x t Hs. unfold Rdiv. rewrite Rinv_mult. set (w := / t). clearbody w. field. exact Hs. Qed.
Lemma crdiv_cc : forall s (z : Cr) a b, s <> 0 -> crdiv z (cc (s * a) (s * b)) = rmul (cc (/ s) 0) (crdiv z (cc a b)).
Proof.
  intros s z a b Hs. unfold crdiv. change (re (cc (s * a) (s * b))) with (s * a). change (im (cc (s * a) (s * b))) with (s * b). change (re (cc a b)) with a. change (im (cc a b)) with b.
  assert (A : s * a / (s * a * (s * a) + s * b * (s * b)) = / s * (a / (a * a + b * b))).
  { replace (s * a * (s * a) + s * b * (s * b)) with (s * (s * (a * a + b * b))) by ring. unfold Rdiv. rewrite !Rinv_mult. set (w := / (a * a + b * b)). clearbody w. field. exact Hs. }
  assert (B : - (s * b) / (s * a * (s * a) + s * b * (s * b)) = / s * (- b / (a * a + b * b))).
  { replace (s * a * (s * a) + s * b * (s * b)) with (s * (s * (a * a + b * b))) by ring. unfold Rdiv. rewrite !Rinv_mult. set (w := / (a * a + b * b)). clearbody w. field. exact Hs. }
  rewrite A, B. set (u := a / _). set (v := - b / _). clearbody u v.
  assert (M : cc (/ s * u) (/ s * v) = @rmul Cr (cc (/ s) 0) (cc u v)).
  { unfold cc. apply cplx_eq; rewrite ?re_mul, ?im_mul; cbn [re im]; match goal with |- @eq _ ?u ?v => change (@eq R u v) end; cbn; ring. }
  rewrite M. ring.
Qed.
Ltac ceq := apply cplx_eq; rewrite ?re_mul, ?im_mul; cbn [re im cc]; match goal with |- @eq _ ?u ?v => change (@eq R u v) end; cbn; ring.
Lemma cc_mul : forall a b, @rmul Cr (cc a 0) (cc b 0) = cc (a * b) 0.
Proof. intros. unfold cc. ceq. Qed.
Variable s : R.
Hypothesis Hs : 0 < s.
Lemma D_pole_unit : forall lg z1 z2 z3 T1 T2 mu1 mu2 nr,
  D_pole psi lg (s * z1) (s * z2) (s * z3) (s * T1) (s * T2) (s * mu1) (s * mu2) nr = rmul (cc (/ s * / s) 0) (D_pole psi lg z1 z2 z3 T1 T2 mu1 mu2 nr).
Proof.
  intros. assert (S0 : s <> 0) by lra. unfold D_pole. cbv zeta.
  replace (s * z2 + s * mu1 + s * mu2) with (s * (z2 + mu1 + mu2)) by ring. replace (s * z3 + s * mu1) with (s * (z3 + mu1)) by ring. replace (s * z1 + s * mu1) with (s * (z1 + mu1)) by ring.
  replace (2 * PI * (s * T2)) with (s * (2 * PI * T2)) by ring. replace (s * T1 / fst nr) with (s * (T1 / fst nr)) by (unfold Rdiv; ring). rewrite !ratio2 by exact S0.
  replace (- (s * (z3 + mu1))) with (s * - (z3 + mu1)) by ring. replace (- (s * (z1 + mu1))) with (s * - (z1 + mu1)) by ring.
  rewrite !crdiv_cc by exact S0. rewrite <- cc_mul. ring.
Qed.
Lemma X_pole_unit : forall z1 z2 z3 T1 T2 mu1 mu2 nr,
  X_pole psi (s * z1) (s * z2) (s * z3) (s * T1) (s * T2) (s * mu1) (s * mu2) nr = rmul (cc (/ s * / s) 0) (X_pole psi z1 z2 z3 T1 T2 mu1 mu2 nr).
Proof.
  intros. assert (S0 : s <> 0) by lra. unfold X_pole. cbv zeta.
  replace (s * z2 + s * mu1 + s * mu2) with (s * (z2 + mu1 + mu2)) by ring. replace (s * z3 + s * mu2) with (s * (z3 + mu2)) by ring. replace (s * z1 + s * mu1) with (s * (z1 + mu1)) by ring.
  replace (2 * PI * (s * T2)) with (s * (2 * PI * T2)) by ring. replace (s * T1 / fst nr) with (s * (T1 / fst nr)) by (unfold Rdiv; ring). rewrite !ratio2 by exact S0.
  replace (- (s * z2) + s * z3 - s * mu1) with (s * (- z2 + z3 - mu1)) by ring. replace (- (s * (z1 + mu1))) with (s * - (z1 + mu1)) by ring.
  rewrite !crdiv_cc by exact S0. unfold crdiv. rewrite <- cc_mul. ring.
Qed.
Lemma D_second_unit : forall z1 z3 T1 mu1, D_second psi psi1 (s * z1) (s * z3) (s * T1) (s * mu1) = rmul (cc (/ s) 0) (D_second psi psi1 z1 z3 T1 mu1).
Proof.
  intros. assert (S0 : s <> 0) by lra. unfold D_second. cbv zeta.
  replace (s * z3 + s * mu1) with (s * (z3 + mu1)) by ring. replace (s * z1 + s * mu1) with (s * (z1 + mu1)) by ring.
  replace (2 * PI * (s * T1)) with (s * (2 * PI * T1)) by ring. rewrite !ratio2 by exact S0.
  assert (Q : forall x, x / (s * T1) = / s * (x / T1)) by (intros; unfold Rdiv; rewrite Rinv_mult; ring). rewrite !Q.
  assert (M1 : forall x, cc 0 (/ s * x) = @rmul Cr (cc (/ s) 0) (cc 0 x)) by (intros; unfold cc; ceq).
  assert (M2 : forall x, cc (/ s * x) 0 = @rmul Cr (cc (/ s) 0) (cc x 0)) by (intros; unfold cc; ceq).
  destruct (Rlt_dec E_MIN (Rabs (z3 / T1 - z1 / T1))); rewrite ?M1, ?M2; ring.
Qed.
Lemma kept_unit : forall D T2 bR, kept (s * D) (s * T2) bR = kept D T2 bR.
Proof. intros. unfold kept. rewrite ratio2 by lra. reflexivity. Qed.
Lemma half_unit : forall D, (Rabs (s * D / 2) + Rabs (s * D / 2)) * / 2 = s * ((Rabs (D / 2) + Rabs (D / 2)) * / 2).
Proof. intros. replace (s * D / 2) with (s * (D / 2)) by (unfold Rdiv; ring). rewrite Rabs_mult, (Rabs_right s) by lra. ring. Qed.
Lemma D_integral_unit : forall p z1 z2 z3 T1 T2 mu1 mu2 D bR,
  D_integral psi psi1 1 p (s * z1) (s * z2) (s * z3) (s * T1) (s * T2) (s * mu1) (s * mu2) (s * D / 2) (s * D / 2) bR =
  rmul (cc (/ s) 0) (D_integral psi psi1 1 p z1 z2 z3 T1 T2 mu1 mu2 (D / 2) (D / 2) bR).
Proof.
  intros. assert (S0 : s <> 0) by lra. unfold D_integral, D_with. cbv zeta. rewrite half_unit, kept_unit, D_second_unit.
  replace (2 * PI * (s * T1)) with (s * (2 * PI * T1)) by ring. rewrite ratio2 by exact S0. set (lg := ln _).
  assert (X : @rsum Cr _ (D_pole psi lg (s * z1) (s * z2) (s * z3) (s * T1) (s * T2) (s * mu1) (s * mu2)) (kept ((Rabs (D / 2) + Rabs (D / 2)) * / 2) T2 bR) =
    @rmul Cr (cc (/ s * / s) 0) (@rsum Cr _ (D_pole psi lg z1 z2 z3 T1 T2 mu1 mu2) (kept ((Rabs (D / 2) + Rabs (D / 2)) * / 2) T2 bR))).
  { rewrite <- (rsum_mul_l Cr). apply (rsum_ext Cr). intros nr _. apply D_pole_unit. }
  rewrite X. assert (M : cc 0 (- (8 * PI * (s * T1))) = @rmul Cr (cc s 0) (cc 0 (- (8 * PI * T1)))) by (unfold cc; ceq).
  assert (I : @rmul Cr (cc (/ s * / s) 0) (cc s 0) = cc (/ s) 0). { rewrite cc_mul. f_equal. field. exact S0. }
  rewrite M, <- I. ring [I].
Qed.
Lemma X_integral_unit : forall p z1 z2 z3 T1 T2 mu1 mu2 D bR,
  X_integral psi 1 p (s * z1) (s * z2) (s * z3) (s * T1) (s * T2) (s * mu1) (s * mu2) (s * D / 2) (s * D / 2) bR =
  rmul (cc (/ s) 0) (X_integral psi 1 p z1 z2 z3 T1 T2 mu1 mu2 (D / 2) (D / 2) bR).
Proof.
  intros. assert (S0 : s <> 0) by lra. unfold X_integral. cbv zeta. rewrite half_unit, kept_unit.
  assert (X : @rsum Cr _ (X_pole psi (s * z1) (s * z2) (s * z3) (s * T1) (s * T2) (s * mu1) (s * mu2)) (kept ((Rabs (D / 2) + Rabs (D / 2)) * / 2) T2 bR) =
    @rmul Cr (cc (/ s * / s) 0) (@rsum Cr _ (X_pole psi z1 z2 z3 T1 T2 mu1 mu2) (kept ((Rabs (D / 2) + Rabs (D / 2)) * / 2) T2 bR))).
  { rewrite <- (rsum_mul_l Cr). apply (rsum_ext Cr). intros nr _. apply X_pole_unit. }
  rewrite X. assert (M : cc 0 (- (8 * PI * (s * T1))) = @rmul Cr (cc s 0) (cc 0 (- (8 * PI * T1)))) by (unfold cc; ceq).
  assert (I : @rmul Cr (cc (/ s * / s) 0) (cc s 0) = cc (/ s) 0). { rewrite cc_mul. f_equal. field. exact S0. }
  rewrite M, <- I. ring.
Qed.
Definition same_side (d tmin : R) : Prop := s * d < tmin <-> d < tmin.
Theorem C74_rtd_integrals : forall p eta E1 E2 E3 T1 T2 mu1 mu2 D bR f,
  (same_side (Rabs (T2 - T1)) (1 / 10 ^ 5) ->
   ID p eta (s * E1) (s * E2) (s * E3) (s * T1) (s * T2) (s * mu1) (s * mu2) (s * D) bR f = rmul (cc (/ s) 0) (ID p eta E1 E2 E3 T1 T2 mu1 mu2 D bR f)) /\
  (same_side (Rabs (T2 - T1)) (1 / 10 ^ 10) ->
   IX p eta (s * E1) (s * E2) (s * E3) (s * T1) (s * T2) (s * mu1) (s * mu2) (s * D) bR f = rmul (cc (/ s) 0) (IX p eta E1 E2 E3 T1 T2 mu1 mu2 D bR f)).
Proof.
  intros. assert (S0 : s <> 0) by lra.
  assert (AB : Rabs (s * T2 - s * T1) = s * Rabs (T2 - T1)).
  { replace (s * T2 - s * T1) with (s * (T2 - T1)) by ring. rewrite Rabs_mult, (Rabs_right s) by lra. reflexivity. }
  assert (NG : forall x, - (s * x) = s * - x) by (intros; ring).
  assert (Q : forall x, x / (s * T1) = / s * (x / T1)) by (intros; unfold Rdiv; rewrite Rinv_mult; ring).
  assert (M2 : forall x, cc (/ s * x) 0 = @rmul Cr (cc (/ s) 0) (cc x 0)) by (intros; unfold cc; ceq).
  split; intros SS; unfold same_side in SS; unfold integralD_any, integralX_any; rewrite AB, !NG; replace (eta * (s * mu2)) with (s * (eta * mu2)) by ring.
  - rewrite D_integral_unit. unfold TMIN_D.
    destruct (Rlt_dec (s * Rabs (T2 - T1)) (1 / 10 ^ 5)) as [H|H]; destruct (Rlt_dec (Rabs (T2 - T1)) (1 / 10 ^ 5)) as [H'|H']; try (exfalso; tauto); [|ring].
    destruct f; [ring|]. unfold integralD. replace (eta * (s * mu2)) with (s * (eta * mu2)) by ring.
    replace (s * E3 - s * mu1) with (s * (E3 - mu1)) by ring. replace (s * E1 - s * mu1) with (s * (E1 - mu1)) by ring. replace (s * E2 - s * mu1 - s * (eta * mu2)) with (s * (E2 - mu1 - eta * mu2)) by ring.
    replace (s * D / 2) with (s * (D / 2)) by (unfold Rdiv; ring). rewrite !ratio2 by exact S0. rewrite Q. apply M2.
  - rewrite X_integral_unit. unfold TMIN_X.
    destruct (Rlt_dec (s * Rabs (T2 - T1)) (1 / 10 ^ 10)) as [H|H]; destruct (Rlt_dec (Rabs (T2 - T1)) (1 / 10 ^ 10)) as [H'|H']; try (exfalso; tauto); [|ring].
    destruct f; [ring|]. unfold integralX. replace (eta * (s * mu2)) with (s * (eta * mu2)) by ring.
    replace (s * E3 - s * (eta * mu2)) with (s * (E3 - eta * mu2)) by ring. replace (s * E1 - s * mu1) with (s * (E1 - mu1)) by ring. replace (s * E2 - s * mu1 - s * (eta * mu2)) with (s * (E2 - mu1 - eta * mu2)) by ring.
    replace (s * D / 2) with (s * (D / 2)) by (unfold Rdiv; ring). rewrite !ratio2 by exact S0. rewrite Q. apply M2.
Qed.
End Integrals.
Print Assumptions C74_below_threshold.
Print Assumptions C74_rtd_integrals.

(** ** The RTD approach does not allow every change of units *)
Lemma pole_bounds : forall bR : list (R * R), (forall p, In p bR -> 0 < fst p) ->
  exists lo hi, 0 < lo <= / 2 /\ 2 <= hi /\ forall p, In p bR -> lo <= fst p /\ 2 * fst p < hi.
Proof.
  induction bR as [|p bR IH]; intros H.
  - exists (/ 2), 2. split; [lra|]. split; [lra|]. intros p [].
  - destruct IH as (lo & hi & L & U & B); [intros q Hq; apply H; now right|]. assert (P : 0 < fst p) by (apply H; now left).
    exists (Rmin lo (fst p)), (Rmax hi (2 * fst p + 1)). split; [|split].
    + split; [apply Rmin_glb_lt; lra|]. apply Rle_trans with lo; [apply Rmin_l|lra].
    + apply Rle_trans with hi; [lra|apply Rmax_l].
    + intros q [<-|Hq].
      * split; [apply Rmin_r|]. apply Rlt_le_trans with (2 * fst p + 1); [lra|apply Rmax_r].
      * destruct (B q Hq) as (B1 & B2). split; [apply Rle_trans with lo; [apply Rmin_l|lra]|]. apply Rlt_le_trans with hi; [lra|apply Rmax_l].
Qed.
Lemma kept_all : forall D T2 bR, 0 < T2 -> (forall p : R * R, In p bR -> 0 < fst p /\ T2 <= D * fst p) -> kept D T2 bR = bR.
Proof.
  intros D T2 bR HT H. unfold kept. induction bR as [|p bR IH]; [reflexivity|]. cbn [filter]. destruct (H p (or_introl eq_refl)) as (P & Q).
  destruct (Rlt_dec (D / T2) (1 / fst p)) as [L|L].
  - exfalso. assert (X : D / T2 * (T2 * fst p) < 1 / fst p * (T2 * fst p)) by (apply Rmult_lt_compat_r; [nra|exact L]).
    replace (D / T2 * (T2 * fst p)) with (D * fst p) in X by (field; lra). replace (1 / fst p * (T2 * fst p)) with T2 in X by (field; lra). lra.
  - f_equal. apply IH. intros q Hq. apply H. now right.
Qed.
Lemma kept_none : forall D T2 bR, 0 < T2 -> (forall p : R * R, In p bR -> 0 < fst p /\ D * fst p < T2) -> kept D T2 bR = [].
Proof.
  intros D T2 bR HT H. unfold kept. induction bR as [|p bR IH]; [reflexivity|]. cbn [filter]. destruct (H p (or_introl eq_refl)) as (P & Q).
  destruct (Rlt_dec (D / T2) (1 / fst p)) as [L|L].
  - apply IH. intros q Hq. apply H. now right.
  - exfalso. apply L. apply Rmult_lt_reg_r with (T2 * fst p); [nra|]. replace (D / T2 * (T2 * fst p)) with (D * fst p) by (field; lra). replace (1 / fst p * (T2 * fst p)) with T2 by (field; lra). exact Q.
Qed.
Lemma re_sub : forall x y : Cr, re (rsub x y) = re x - re y.
Proof. reflexivity. Qed.
Lemma im_sub : forall x y : Cr, im (rsub x y) = im x - im y.
Proof. reflexivity. Qed.
Section Refuted.
Variables (psi psi1 : Cr -> Cr) (psi_re psi1_im psi2_re : R -> R).
Local Notation ID := (integralD_any psi psi1 psi_re psi1_im psi2_re).
Add Ring CrUR : (rth (Cx RRing)).
Lemma pole_log : forall l1 l2 T2 nr, 0 < fst nr ->
  re (D_pole psi l1 (- 0) (- 0) (- 0) 1 T2 0 (1 * 0) nr) - re (D_pole psi l2 (- 0) (- 0) (- 0) 1 T2 0 (1 * 0) nr) = (l1 - l2) * (fst nr * fst nr * snd nr).
Proof.
  intros l1 l2 T2 nr Hn. unfold D_pole. cbv zeta. set (P := psi _). clearbody P.
  replace (- (- 0 + 0)) with 0 by ring.
  assert (W : crdiv r1 (cc (1 / fst nr) 0) = cc (fst nr) 0).
  { unfold crdiv. change (re (cc (1 / fst nr) 0)) with (1 / fst nr). change (im (cc (1 / fst nr) 0)) with 0.
    replace (1 / fst nr / (1 / fst nr * (1 / fst nr) + 0 * 0)) with (fst nr) by (field; lra).
    replace (- 0 / (1 / fst nr * (1 / fst nr) + 0 * 0)) with 0 by (field; lra). ring. }
  rewrite W. assert (A : forall l, @rmul Cr (rmul (rmul (rsub (cc l 0) P) (cc (fst nr) 0)) (cc (fst nr) 0)) (cc (snd nr) 0) = @rmul Cr (rsub (cc l 0) P) (cc (fst nr * fst nr * snd nr) 0)).
  { intros l. rewrite <- (cc_mul (fst nr * fst nr)), <- (cc_mul (fst nr)). ring. }
  rewrite !A. set (w := fst nr * fst nr * snd nr). clearbody w.
  assert (B : forall l, re (@rmul Cr (rsub (cc l 0) P) (cc w 0)) = (l - re P) * w).
  { intros l. rewrite re_mul. change (re (cc w 0)) with w. change (im (cc w 0)) with 0. rewrite re_sub. change (re (cc l 0)) with l.
    match goal with |- @eq _ ?u ?v => change (@eq R u v) end. cbn. ring. }
  rewrite !B. ring.
Qed.
Lemma poles_log : forall l1 l2 T2 bR, l1 < l2 -> bR <> [] -> (forall p : R * R, In p bR -> 0 < fst p /\ 0 < snd p) ->
  re (@rsum Cr _ (D_pole psi l1 (- 0) (- 0) (- 0) 1 T2 0 (1 * 0)) bR) < re (@rsum Cr _ (D_pole psi l2 (- 0) (- 0) (- 0) 1 T2 0 (1 * 0)) bR).
Proof.
  intros l1 l2 T2 bR Hl Hne H.
  assert (LE : forall b, (forall p : R * R, In p b -> 0 < fst p /\ 0 < snd p) ->
     re (@rsum Cr _ (D_pole psi l1 (- 0) (- 0) (- 0) 1 T2 0 (1 * 0)) b) <= re (@rsum Cr _ (D_pole psi l2 (- 0) (- 0) (- 0) 1 T2 0 (1 * 0)) b)).
  { induction b as [|p b IH]; intros Hb; [cbn [rsum]; lra|]. cbn [rsum]. rewrite !re_add. change (@radd RRing) with Rplus. specialize (IH (fun q Hq => Hb q (or_intror Hq))).
    destruct (Hb p (or_introl eq_refl)) as (P1 & P2). pose proof (pole_log l1 l2 T2 p P1) as X. assert (0 < fst p * fst p * snd p) by (apply Rmult_lt_0_compat; [nra|lra]). nra. }
  destruct bR as [|p b]; [congruence|]. cbn [rsum]. rewrite !re_add. change (@radd RRing) with Rplus. specialize (LE b (fun q Hq => H q (or_intror Hq))).
  destruct (H p (or_introl eq_refl)) as (P1 & P2). pose proof (pole_log l1 l2 T2 p P1) as X. assert (0 < fst p * fst p * snd p) by (apply Rmult_lt_0_compat; [nra|lra]). nra.
Qed.
(** the real part away from equal temperatures: poles and a part that depends on neither T2 nor the band *)
Lemma value_any : forall T2 D bR, 0 < D -> 1 / 10 ^ 5 <= Rabs (T2 - 1) ->
  re (ID 1 1 0 0 0 1 T2 0 0 D bR false) =
  - 2 * PI * re (@rsum Cr _ (D_pole psi (ln (D / 2 / (2 * PI * 1))) (- 0) (- 0) (- 0) 1 T2 0 (1 * 0)) (kept (D / 2) T2 bR)) - im (D_second psi psi1 (- 0) (- 0) 1 0) / 4.
Proof.
  intros T2 D bR HD HT. unfold integralD_any. destruct (Rlt_dec (Rabs (T2 - 1)) TMIN_D) as [X|_]; [unfold TMIN_D in X; lra|].
  unfold D_integral, D_with. cbv zeta. replace ((Rabs (D / 2) + Rabs (D / 2)) * / 2) with (D / 2) by (rewrite Rabs_right by lra; field).
  set (S := @rsum Cr _ _ _). set (Z := D_second _ _ _ _ _ _). clearbody S Z. destruct S as [a b]. destruct Z as [c d].
  unfold cc. rewrite ?re_mul, ?im_mul, ?re_sub, ?im_sub, ?re_mul, ?im_mul, ?re_sub, ?im_sub, ?re_mul, ?im_mul. cbn [re im].
  match goal with |- @eq _ ?u ?v => change (@eq R u v) end. cbn. field.
Qed.
Theorem C74_rtd_refuted : forall bR, bR <> [] -> (forall p : R * R, In p bR -> 0 < fst p /\ 0 < snd p) ->
  exists s T2 D, 0 < s /\ 0 < T2 /\ 0 < D /\
    re (ID 1 1 (s * 0) (s * 0) (s * 0) (s * 1) (s * T2) (s * 0) (s * 0) (s * D) bR false) <> / s * re (ID 1 1 0 0 0 1 T2 0 0 D bR false).
Proof.
  intros bR Hne H. apply NNPP. intros NE.
  destruct (pole_bounds bR (fun p Hp => proj1 (H p Hp))) as (lo & hi & L & U & B).
  set (s := / 10 ^ 6 / (1 + hi)). assert (Sp : 0 < s) by (unfold s; apply Rdiv_lt_0_compat; [lra|lra]).
  assert (SC : forall T2 D, 0 < T2 -> 0 < D -> re (ID 1 1 (s * 0) (s * 0) (s * 0) (s * 1) (s * T2) (s * 0) (s * 0) (s * D) bR false) = / s * re (ID 1 1 0 0 0 1 T2 0 0 D bR false)).
  { intros T2 D HT HD. apply NNPP. intros X. apply NE. exists s, T2, D. auto. }
  assert (SM : forall T2, 0 < T2 <= hi -> Rabs (s * T2 - s * 1) < 1 / 10 ^ 5).
  { intros T2 HT. replace (s * T2 - s * 1) with (s * (T2 - 1)) by ring. rewrite Rabs_mult, (Rabs_right s) by lra.
    assert (A : Rabs (T2 - 1) <= 1 + hi) by (apply Rabs_le; lra).
    apply Rle_lt_trans with (s * (1 + hi)); [apply Rmult_le_compat_l; lra|]. unfold s. replace (/ 10 ^ 6 / (1 + hi) * (1 + hi)) with (/ 10 ^ 6) by (field; lra). lra. }
  assert (EQ : forall D, 0 < D -> re (ID 1 1 0 0 0 1 lo 0 0 D bR false) = re (ID 1 1 0 0 0 1 hi 0 0 D bR false)).
  { intros D HD. apply Rmult_eq_reg_l with (/ s); [|apply Rinv_neq_0_compat; lra]. rewrite <- !SC by lra. f_equal.
    apply (C74_below_threshold psi psi1 psi_re psi1_im psi2_re); apply SM; lra. }
  assert (AL : 1 / 10 ^ 5 <= Rabs (lo - 1)) by (rewrite Rabs_left by lra; lra).
  assert (AH : 1 / 10 ^ 5 <= Rabs (hi - 1)) by (rewrite Rabs_right by lra; lra).
  pose proof (EQ 2 ltac:(lra)) as E1. pose proof (EQ 4 ltac:(lra)) as E2. rewrite !value_any in E1, E2 by (lra || assumption).
  assert (K1 : forall D, 2 <= D -> kept (D / 2) lo bR = bR).
  { intros D HD. apply kept_all; [lra|]. intros p Hp. destruct (H p Hp) as (P1 & _). destruct (B p Hp) as (B1 & _). split; [exact P1|]. nra. }
  assert (K2 : forall D, D <= 4 -> kept (D / 2) hi bR = []).
  { intros D HD. apply kept_none; [lra|]. intros p Hp. destruct (H p Hp) as (P1 & _). destruct (B p Hp) as (_ & B1). split; [exact P1|]. nra. }
  rewrite !K1 in E1, E2 by lra. rewrite !K2 in E1, E2 by lra. cbn [rsum] in E1, E2.
  pose proof PI_RGT_0 as PP.
  assert (LN : ln (2 / 2 / (2 * PI * 1)) < ln (4 / 2 / (2 * PI * 1))).
  { apply ln_increasing; [apply Rdiv_lt_0_compat; lra|]. unfold Rdiv. apply Rmult_lt_compat_r; [apply Rinv_0_lt_compat; lra|lra]. }
  pose proof (poles_log _ _ lo bR LN Hne H) as X. nra.
Qed.
End Refuted.
Print Assumptions C74_rtd_refuted.

(** for the poles 1 and 2 (residues 3 and 1), any functions in place of digamma *)
Example C74_rtd_case : forall psi psi1 psi_re psi1_im psi2_re, exists s T2 D, 0 < s /\ 0 < T2 /\ 0 < D /\
    re (integralD_any psi psi1 psi_re psi1_im psi2_re 1 1 (s * 0) (s * 0) (s * 0) (s * 1) (s * T2) (s * 0) (s * 0) (s * D) [(1, 3); (2, 1)] false) <>
    / s * re (integralD_any psi psi1 psi_re psi1_im psi2_re 1 1 0 0 0 1 T2 0 0 D [(1, 3); (2, 1)] false).
Proof. intros. apply C74_rtd_refuted; [discriminate|]. intros p [<-|[<-|[]]]; simpl; lra. Qed.
(** temperatures 1 and 3 in one unit, 1000 and 3000 in another: both are told apart *)
Example C74_rtd_same : forall psi psi1 psi_re psi1_im psi2_re bR,
  integralD_any psi psi1 psi_re psi1_im psi2_re 1 (-1) (1000 * 5) (1000 * 7) (1000 * 2) (1000 * 1) (1000 * 3) (1000 * 1) (1000 * -1) (1000 * 100) bR true =
  rmul (cc (/ 1000) 0) (integralD_any psi psi1 psi_re psi1_im psi2_re 1 (-1) 5 7 2 1 3 1 (-1) 100 bR true).
Proof. intros. apply C74_rtd_integrals; [lra|]. unfold same_side. rewrite Rabs_right by lra. lra. Qed.
(** the amplitudes 2 and 3i of two leads, the second lead turned by i *)
Example C74_amplitudes_case :
  match construct_Tba ZRing (si_init 2 "charge") 2 [((0%nat, 0%nat), ZC 2 0); ((1%nat, 1%nat), ZC 0 3)] zeros,
        construct_Tba ZRing (si_init 2 "charge") 2 (turned_leads ZRing (fun l => if Nat.eqb l 0 then ZC 1 0 else ZC 0 1) [((0%nat, 0%nat), ZC 2 0); ((1%nat, 1%nat), ZC 0 3)]) zeros with
  | Some T, Some T' => (T (1, 1, 0), T' (1, 1, 0), T (1, 0, 1), T' (1, 0, 1))%nat = (ZC 0 3, ZC (-3) 0, ZC 0 (-3), ZC (-3) 0)
  | _, _ => False end.
Proof. vm_compute. reflexivity. Qed.
