(** The second-order integrals of the RTD approach for any temperatures.
    qmeq/specfunc/specfunc.py integralD 458-505, integralX 507-554, _D_integral 661-731, _X_integral 734-792;
    the cutoffs and arguments of qmeq/approach/base/RTD.py generate_col_diag_kern_2nd_order 488-500.
    Real numbers in place of floats; [b_and_R] is the list of its rows. *)
From Coq Require Import Reals List ZArith.
From Verif Require Import CRing SpecFunc RTDInt.
Import ListNotations.
Local Notation Cr := (Cx RRing).

(** a + b*1j *)
Definition cc (a b : R) : Cr := @mkC RRing a b.
Definition crdiv (z w : Cr) : Cr :=
  rmul z (cc (re w / (re w * re w + im w * im w)) (- im w / (re w * re w + im w * im w)))%R.
Definition cmod_ (z : Cr) : R := sqrt (re z * re z + im z * im z).

Section Model.
(** complex digamma(z) and polygamma(z, 1) *)
Variables psi psi1 : Cr -> Cr.
Local Open Scope R_scope.

(** [for i, n in enumerate(b_and_R[:, 0]): if 1 / n > D / T2: continue] *)
Definition kept (D T2 : R) (bR : list (R * R)) : list (R * R) :=
  filter (fun nr => if Rlt_dec (D / T2) (1 / fst nr) then false else true) bR.

(** 700-715; [lg] is the logarithm in A *)
Definition D_pole (lg z1 z2 z3 T1 T2 mu1 mu2 : R) (nr : R * R) : Cr :=
  let x := T1 / fst nr in
  let A := rsub (cc lg 0) (psi (cc (/ 2 + x / (2 * PI * T2)) (- ((z2 + mu1 + mu2) / (2 * PI * T2))))) in
  let B := cc x (- (z3 + mu1)) in
  let C := cc x (- (z1 + mu1)) in
  rmul (rmul (rmul A (crdiv r1 B)) (crdiv r1 C)) (cc (snd nr) 0).
(** 717-723 *)
Definition D_second (z1 z3 T1 mu1 : R) : Cr :=
  let a := psi (cc (/ 2) (- ((z3 + mu1) / (2 * PI * T1)))) in
  let b := psi (cc (/ 2) (- ((z1 + mu1) / (2 * PI * T1)))) in
  if Rlt_dec E_MIN (Rabs (z3 / T1 - z1 / T1)) then
    rmul (crdiv (rsub a b) (cc (z3 / T1 - z1 / T1) 0)) (cc 0 (- (2 * PI) / T1))
  else rmul (psi1 (cc (/ 2) (- ((z3 + mu1) / (2 * PI * T1))))) (cc (- (1) / T1) 0).
Definition D_with (lg p1 p2 z1 z2 z3 T1 T2 mu1 mu2 Dp Dm : R) (bR : list (R * R)) : Cr :=
  let D := (Rabs Dp + Rabs Dm) * / 2 in
  let f1 := rmul (rsum (D_pole lg z1 z2 z3 T1 T2 mu1 mu2) (kept D T2 bR)) (cc 0 (- (8 * PI * T1))) in
  rmul (cc (1 / 4) 0) (rsub (rmul (cc (p1 * p2) 0) f1) (rmul (cc p1 0) (D_second z1 z3 T1 mu1))).
(** _D_integral: the logarithm is [np.log(D / (2 * PI * T1))] *)
Definition D_integral (p1 p2 z1 z2 z3 T1 T2 mu1 mu2 Dp Dm : R) (bR : list (R * R)) : Cr :=
  D_with (ln ((Rabs Dp + Rabs Dm) * / 2 / (2 * PI * T1))) p1 p2 z1 z2 z3 T1 T2 mu1 mu2 Dp Dm bR.

(** _X_integral *)
Definition X_pole (z1 z2 z3 T1 T2 mu1 mu2 : R) (nr : R * R) : Cr :=
  let x := T1 / fst nr in
  let A := psi (cc (/ 2 + x / (2 * PI * T2)) (- ((z2 + mu1 + mu2) / (2 * PI * T2)))) in
  let B := psi (cc (/ 2) (- ((z3 + mu2) / (2 * PI * T2)))) in
  let C := cc x (- z2 + z3 - mu1) in
  let E := cc x (- (z1 + mu1)) in
  rmul (crdiv (crdiv (rsub A B) C) E) (cc (snd nr) 0).
Definition X_integral (p1 p2 z1 z2 z3 T1 T2 mu1 mu2 Dp Dm : R) (bR : list (R * R)) : Cr :=
  let D := (Rabs Dp + Rabs Dm) * / 2 in
  rmul (rmul (rsum (X_pole z1 z2 z3 T1 T2 mu1 mu2) (kept D T2 bR)) (cc 0 (- (8 * PI * T1)))) (cc (p1 * p2 * (1 / 4)) 0).

Variables psi_re psi1_im psi2_re : R -> R.
Definition TMIN_D : R := 1 / 10 ^ 5.
Definition TMIN_X : R := 1 / 10 ^ 10.
(** [lg D T1 T2] stands for the logarithm of _D_integral *)
Definition integralD_with (lg : R -> R -> R -> R) (p1 eta1 E1 E2 E3 T1 T2 mu1 mu2 D : R) (bR : list (R * R)) (im_gamma : bool) : Cr :=
  if Rlt_dec (Rabs (T2 - T1)) TMIN_D then
    (if im_gamma then rmul (cc 0 (- (1))) (D_with (lg (D / 2) T1 T2) 1 p1 (- E1) (- E2) (- E3) T1 T2 mu1 (eta1 * mu2) (D / 2) (D / 2) bR)
     else cc (integralD psi_re psi1_im psi2_re p1 eta1 E1 E2 E3 T1 mu1 mu2 D) 0)
  else rmul (cc 0 (- (1))) (D_with (lg (D / 2) T1 T2) 1 p1 (- E1) (- E2) (- E3) T1 T2 mu1 (eta1 * mu2) (D / 2) (D / 2) bR).
Definition integralD_any (p1 eta1 E1 E2 E3 T1 T2 mu1 mu2 D : R) (bR : list (R * R)) (im_gamma : bool) : Cr :=
  if Rlt_dec (Rabs (T2 - T1)) TMIN_D then
    (if im_gamma then rmul (cc 0 (- (1))) (D_integral 1 p1 (- E1) (- E2) (- E3) T1 T2 mu1 (eta1 * mu2) (D / 2) (D / 2) bR)
     else cc (integralD psi_re psi1_im psi2_re p1 eta1 E1 E2 E3 T1 mu1 mu2 D) 0)
  else rmul (cc 0 (- (1))) (D_integral 1 p1 (- E1) (- E2) (- E3) T1 T2 mu1 (eta1 * mu2) (D / 2) (D / 2) bR).
Definition integralX_any (p1 eta1 E1 E2 E3 T1 T2 mu1 mu2 D : R) (bR : list (R * R)) (im_gamma : bool) : Cr :=
  if Rlt_dec (Rabs (T2 - T1)) TMIN_X then
    (if im_gamma then rmul (cc 0 (- (1))) (X_integral 1 p1 (- E1) (- E2) (- E3) T1 T2 mu1 (eta1 * mu2) (D / 2) (D / 2) bR)
     else cc (integralX psi_re psi1_im psi2_re p1 eta1 E1 E2 E3 T1 mu1 mu2 D) 0)
  else rmul (cc 0 (- (1))) (X_integral 1 p1 (- E1) (- E2) (- E3) T1 T2 mu1 (eta1 * mu2) (D / 2) (D / 2) bR).

(** what the loops of generate_col_diag_kern_2nd_order read: tlst, mulst, dlst *)
Variables (tm mu : nat -> R) (dl : nat -> R * R) (bR : list (R * R)).
Definition band (r : nat) : R := Rabs (snd (dl r)) + Rabs (fst (dl r)).
Definition rtd_D (p eta : Z) (E1 E2 E3 : R) (r0 r1 : nat) (f : bool) : Cr :=
  integralD_any (IZR p) (IZR eta) E1 E2 E3 (tm r0) (tm r1) (mu r0) (mu r1) (band r0) bR f.
Definition rtd_X (p eta : Z) (E1 E2 E3 : R) (r0 r1 : nat) (f : bool) : Cr :=
  integralX_any (IZR p) (IZR eta) E1 E2 E3 (tm r0) (tm r1) (mu r0) (mu r1) (band r0) bR f.
Definition rtd_D_with (lg : R -> R -> R -> R) (p eta : Z) (E1 E2 E3 : R) (r0 r1 : nat) (f : bool) : Cr :=
  integralD_with lg (IZR p) (IZR eta) E1 E2 E3 (tm r0) (tm r1) (mu r0) (mu r1) (band r0) bR f.
(** phi((x-mu_l)/T_l, dlst[l,0]/T_l, dlst[l,1]/T_l) and phi(-(x-mu_l)/T_l, …) *)
Definition rtd_phi (l : nat) (x : R) : R := phi psi_re ((x - mu l) / tm l) (fst (dl l) / tm l) (snd (dl l) / tm l).
Definition rtd_phim (l : nat) (x : R) : R := phi psi_re (- ((x - mu l) / tm l)) (fst (dl l) / tm l) (snd (dl l) / tm l).
Definition rtd_F (l : nat) (x : R) : R := fermi_func ((x - mu l) / tm l).
Definition rtd_Fm (l : nat) (x : R) : R := fermi_func (- ((x - mu l) / tm l)).
(** 490-492; [tmax] is max(tlst) *)
Variable tmax : R.
Definition cut_is0 (z : Cr) : bool := if Req_EM_T (cmod_ z) 0 then true else false.
Definition cut_lt2 (z : Cr) : bool := if Rlt_dec (cmod_ z) (1 / 10 ^ 10 * tmax) then true else false.
Definition cut_gt3 (z : Cr) : bool := if Rlt_dec (1 / 10 ^ 20 * tmax ^ 2) (cmod_ z) then true else false.
Definition cut_im (z : Cr) : bool := if Rlt_dec (1 / 10 ^ 20 * tmax ^ 2) (Rabs (im z)) then true else false.
End Model.
