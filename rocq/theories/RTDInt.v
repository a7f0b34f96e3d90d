(** The second-order integrals of the RTD approach for equal temperatures.
    qmeq/specfunc/specfunc.py diff_fermi 200-219, bose 221-240, phi 246-269, diff_phi 271-290, diff2_phi 292-311, delta_phi 313-335,
    _D_integral_equal_T 557-611, _X_integral_equal_T 614-658, the equal temperature branches of integralD 460-505 and integralX 507-554. *)
From Coq Require Import Reals Lra.
From Verif Require Import SpecFunc.
Local Open Scope R_scope.

(** diff_fermi(x, 1) *)
Definition diff_fermi (x : R) : R := if Rlt_dec (cut / 2) x then 0 else - exp x / ((exp x + 1) * (exp x + 1)).
(** bose(x, 1) *)
Definition bose (x : R) : R := if Rlt_dec cut x then 0 else 1 / (exp x - 1).

Section Model.
(** Re digamma(1/2 + i y), Im polygamma(1/2 + i y, 1), Re polygamma(1/2 + i y, 2) *)
Variables psi_re psi1_im psi2_re : R -> R.
Definition phi (x Dp Dm : R) : R := - psi_re (x / (2 * PI)) + ln (/ 2 * (Rabs Dp + Rabs Dm) / (2 * PI)).
Definition diff_phi (x : R) : R := 1 / (2 * PI) * psi1_im (x / (2 * PI)).
Definition diff2_phi (x : R) : R := 1 / (2 * PI * (2 * PI)) * psi2_re (x / (2 * PI)).
Definition delta_phi (x1 x2 Dp Dm : R) : R := phi x1 Dp Dm - phi x2 Dp Dm.

Definition E_MIN : R := 1 / 10 ^ 10.
Definition D_equal_T (p1 p2 E1 deltaE E2 Dp Dm : R) : R :=
  if Rlt_dec (Rabs (E1 - E2)) E_MIN then
    if Rlt_dec (Rabs deltaE) E_MIN then
      p1 * p2 * (- diff2_phi E1 + diff_fermi E1 * phi (- E1) Dp Dm - diff_phi (- E1) * fermi_func E1 - / 2 * diff_phi E1) + / 2 * p2 * diff_phi E1
    else
      p1 * p2 * (- fermi_func E1 * diff_phi (deltaE - E1) - bose deltaE * diff_phi (deltaE - E1) + diff_fermi E1 * phi (deltaE - E1) Dp Dm
                 - (bose deltaE + / 2) * diff_phi E1) + / 2 * p2 * diff_phi E1
  else
    if Rlt_dec (Rabs deltaE) E_MIN then
      1 / (E1 - E2) * (p1 * p2 * (- (diff_phi E1 - diff_phi E2) + fermi_func E1 * phi (- E1) Dp Dm - fermi_func E2 * phi (- E2) Dp Dm
                                  - / 2 * delta_phi E1 E2 Dp Dm) + / 2 * p2 * delta_phi E1 E2 Dp Dm)
    else
      1 / (E1 - E2) * (p1 * p2 * ((fermi_func E1 + bose deltaE) * phi (deltaE - E1) Dp Dm - (fermi_func E2 + bose deltaE) * phi (deltaE - E2) Dp Dm
                                  - (bose deltaE + / 2) * delta_phi E1 E2 Dp Dm) + / 2 * p2 * delta_phi E1 E2 Dp Dm).
Definition X_equal_T (p1 p2 E1 deltaE E2 Dp Dm : R) : R :=
  let ret :=
    if Rlt_dec (Rabs (deltaE - E1 - E2)) E_MIN then
      if Rlt_dec (Rabs deltaE) E_MIN then
        diff2_phi E1 + fermi_func E1 * diff_phi (- E1) + diff_phi E1 * fermi_func (- E1)
      else
        (fermi_func E1 + bose (E1 + E2)) * diff_phi E2 + diff_phi E1 * (fermi_func E2 + bose (E1 + E2))
    else
      if Rlt_dec (Rabs deltaE) E_MIN then
        - (1) / (E1 + E2) * (fermi_func E1 * delta_phi (- E1) E2 Dp Dm + fermi_func E2 * delta_phi (- E2) E1 Dp Dm - (diff_phi E1 + diff_phi E2))
      else
        1 / (deltaE - E1 - E2) * ((fermi_func E1 + bose deltaE) * delta_phi (deltaE - E1) E2 Dp Dm
                                  + (fermi_func E2 + bose deltaE) * delta_phi (deltaE - E2) E1 Dp Dm) in
  p1 * p2 * ret.
(** integralD and integralX when abs(T2-T1) is below TMIN and ImGamma is False *)
Definition integralD (p1 eta1 E1 E2 E3 T1 mu1 mu2 D : R) : R :=
  D_equal_T p1 1 ((E3 - mu1) / T1) ((E2 - mu1 - eta1 * mu2) / T1) ((E1 - mu1) / T1) (D / 2 / T1) (D / 2 / T1) * PI / T1.
Definition integralX (p1 eta1 E1 E2 E3 T1 mu1 mu2 D : R) : R :=
  X_equal_T p1 1 ((E3 - eta1 * mu2) / T1) ((E2 - mu1 - eta1 * mu2) / T1) ((E1 - mu1) / T1) (D / 2 / T1) (D / 2 / T1) * PI / T1.
End Model.
