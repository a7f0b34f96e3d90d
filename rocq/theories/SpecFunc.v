(** qmeq/specfunc/specfunc.py: fermi_func, func_pauli, func_1vN; specfunc_elph.py: FuncBose, FuncPauliElPh.
    Floats are real numbers; exp, log and pi are the real functions. *)
From Coq Require Import Reals Lra Lia.
From Verif Require Import CRing.
Open Scope R_scope.

(** ** Model *)
(** the constant 709.77 *)
Definition cut : R := 70977 / 100.
(** fermi_func 181-197 *)
Definition fermi_func (x : R) : R := if Rlt_dec cut x then 0 else 1 / (exp x + 1).

(** the chained comparison [Rm < alpha < Rp] *)
Definition within (lo x hi : R) : bool := if Rlt_dec lo x then (if Rlt_dec x hi then true else false) else false.

(** func_pauli 18-52 *)
Definition func_pauli (Ecb mu T Dm Dp : R) (itype : nat) : R * R :=
  let alpha := (Ecb - mu) / T in
  let Rm := (Dm - mu) / T in let Rp := (Dp - mu) / T in
  if (Nat.eqb itype 1 || Nat.eqb itype 3 || within Rm alpha Rp)%bool then
    let cur0 := fermi_func alpha in
    let cur1 := 1 - cur0 in
    (2 * PI * cur0, 2 * PI * cur1)
  else (0, 0).

(** func_1vN 55-129.  [quad alpha Rm Rp] is the principal value from scipy.integrate.quad (the integrand is
    always fermi_func), [digamma_re x] the real part of digamma(0.5 + i x): both are parameters.  Returns
    cur0, cur1, en0, en1. *)
Section VN1.
Variables (quad : R -> R -> R -> R) (digamma_re : R -> R).
Local Notation Cr := (Cx RRing).
Local Notation C_ x y := (@mkC RRing x%R y%R : Cr).
Definition iPI (b : bool) (x : R) : R := if b then x else 0.
Definition func_1vN (Ecb mu T Dm Dp : R) (itype : nat) : Cr * Cr * Cr * Cr :=
  let alpha := (Ecb - mu) / T in
  match itype with
  | 0%nat =>
    let Rm := (Dm - mu) / T in let Rp := (Dp - mu) / T in
    let b := within Rm alpha Rp in
    let cur0 : Cr := C_ (quad alpha Rm Rp) (iPI b (- PI * fermi_func alpha)) in
    let cur1 : Cr := radd (radd cur0 (C_ (ln (Rabs ((Rm - alpha) / (Rp - alpha)))) 0)) (C_ 0 (iPI b PI)) in
    let const0 := T * ((if Rlt_dec Rm (-40) then - Rm else ln (1 + exp (- Rm))) -
                       (if Rlt_dec Rp (-40) then - Rp else ln (1 + exp (- Rp)))) in
    let const1 := const0 + Dm - Dp in
    (cur0, cur1, radd (C_ const0 0) (rmul (C_ Ecb 0) cur0), radd (C_ const1 0) (rmul (C_ Ecb 0) cur1))
  | 1%nat =>
    let Rm := Dm / T in let Rp := Dp / T in
    let cur0 : Cr := C_ (digamma_re (alpha / (2 * PI)) - ln (Rabs Rm / (2 * PI))) (- PI * fermi_func alpha) in
    let cur1 : Cr := radd (radd cur0 (C_ (ln (Rabs (Rm / Rp))) 0)) (C_ 0 PI) in
    (cur0, cur1, radd (C_ (- T * Rm) 0) (rmul (C_ Ecb 0) cur0), radd (C_ (- T * Rp) 0) (rmul (C_ Ecb 0) cur1))
  | 2%nat =>
    let Rm := (Dm - mu) / T in let Rp := (Dp - mu) / T in
    let b := within Rm alpha Rp in
    let cur0 : Cr := C_ 0 (iPI b (- PI * fermi_func alpha)) in
    let cur1 : Cr := radd cur0 (C_ 0 (iPI b PI)) in
    (cur0, cur1, rmul (C_ Ecb 0) cur0, rmul (C_ Ecb 0) cur1)
  | 3%nat =>
    let cur0 : Cr := C_ 0 (- PI * fermi_func alpha) in
    let cur1 : Cr := radd cur0 (C_ 0 PI) in
    (cur0, cur1, rmul (C_ Ecb 0) cur0, rmul (C_ Ecb 0) cur1)
  | _ => (C_ 0 0, C_ 0 0, C_ 0 0, C_ 0 0)
  end.
End VN1.

(** specfunc_elph.py FuncBose 18-21, FuncPauliElPh.eval 40-57; [dos] is bath_func[l] or the constant 1 *)
Definition bose (x : R) : R := 1 / (exp x - 1).
Definition func_pauli_elph (dos : R -> R) (eps T omm omp Ebbp : R) : R :=
  let alpha := Rmax (Rabs (Ebbp / T)) eps * (if Rle_dec 0 Ebbp then 1 else -1) in
  let Rm := Rmax (omm / T) (9 / 10 * eps) in let Rp := omp / T in
  if within Rm alpha Rp then 2 * PI * bose alpha * dos (T * alpha)
  else if within Rm (- alpha) Rp then 2 * PI * (1 + bose (- alpha)) * dos (- T * alpha)
  else 0.

(** ** Specification *)
(** the Fermi function of physics *)
Definition fermi (x : R) : R := / (1 + exp x).

(** ** Proofs *)
Lemma exp1_pos : forall x, 0 < exp x + 1.
Proof. intros. pose proof (exp_pos x). lra. Qed.
Lemma fermi_below : forall x, x <= cut -> fermi_func x = fermi x.
Proof.
  intros x H. unfold fermi_func, fermi. destruct (Rlt_dec cut x); [lra|].
  unfold Rdiv. rewrite Rmult_1_l. f_equal. lra.
Qed.
Lemma fermi_above : forall x, cut < x -> fermi_func x = 0.
Proof. intros x H. unfold fermi_func. destruct (Rlt_dec cut x); [auto|lra]. Qed.
Lemma fermi_range : forall x, 0 < fermi x < 1.
Proof.
  intros x. unfold fermi. pose proof (exp_pos x) as P. split.
  - apply Rinv_0_lt_compat. lra.
  - rewrite <- Rinv_1. apply Rinv_lt_contravar; lra.
Qed.
Lemma fermi_exp : forall x, fermi x = exp (- x) * (1 - fermi x).
Proof.
  intros x. unfold fermi. rewrite exp_Ropp. pose proof (exp_pos x). field. lra.
Qed.
Lemma fermi_sym : forall x, fermi x + fermi (- x) = 1.
Proof. intros x. unfold fermi. rewrite exp_Ropp. pose proof (exp_pos x). field. lra. Qed.
Lemma fermi_decr : forall x y, x < y -> fermi y < fermi x.
Proof.
  intros x y H. unfold fermi. pose proof (exp_pos x). pose proof (exp_increasing x y H).
  apply Rinv_lt_contravar; [apply Rmult_lt_0_compat|]; lra.
Qed.
Lemma fermi_small : forall x, fermi x < exp (- x).
Proof. intros x. rewrite fermi_exp. pose proof (fermi_range x). pose proof (exp_pos (- x)). nra. Qed.
Lemma fermi_func_range : forall x, 0 <= fermi_func x < 1.
Proof.
  intros x. destruct (Rlt_dec cut x).
  - rewrite fermi_above by auto. lra.
  - rewrite fermi_below by lra. pose proof (fermi_range x). lra.
Qed.
(** the code's function never exceeds the Boltzmann ratio, and misses it by less than exp(-cut) *)
Lemma fermi_func_ratio : forall x, 0 <= exp (- x) * (1 - fermi_func x) - fermi_func x < exp (- cut).
Proof.
  intros x. destruct (Rlt_dec cut x) as [H|H].
  - rewrite fermi_above by auto. pose proof (exp_pos (- x)). pose proof (exp_increasing (- x) (- cut)). lra.
  - rewrite fermi_below by lra. rewrite <- fermi_exp. pose proof (exp_pos (- cut)). lra.
Qed.

Lemma within_true : forall lo x hi, within lo x hi = true <-> lo < x < hi.
Proof.
  intros. unfold within. destruct (Rlt_dec lo x), (Rlt_dec x hi); split; intros; try discriminate; auto; lra.
Qed.

(** func_pauli in one formula *)
Definition in_band (Ecb mu T Dm Dp : R) (itype : nat) : bool :=
  (Nat.eqb itype 1 || Nat.eqb itype 3 || within ((Dm - mu) / T) ((Ecb - mu) / T) ((Dp - mu) / T))%bool.
Lemma func_pauli_eq : forall E mu T Dm Dp it, func_pauli E mu T Dm Dp it =
  let g := if in_band E mu T Dm Dp it then 2 * PI else 0 in
  (g * fermi_func ((E - mu) / T), g * (1 - fermi_func ((E - mu) / T))).
Proof.
  intros. unfold func_pauli, in_band. destruct (_ || _)%bool; simpl; auto. f_equal; ring.
Qed.
Ltac rsimp := cbn [re im ofR conj Ci]; change (@radd RRing) with Rplus; change (@rmul RRing) with Rmult;
  change (@rsub RRing) with Rminus; change (@ropp RRing) with Ropp; change (@r0 RRing) with 0%R; change (@r1 RRing) with 1%R.
(** the imaginary parts of func_1vN are those of func_pauli *)
Lemma func_1vN_im : forall quad dg E mu T Dm Dp it, (it <= 3)%nat ->
  let '(c0, c1, e0, e1) := func_1vN quad dg E mu T Dm Dp it in
  -2 * im c0 = fst (func_pauli E mu T Dm Dp it) /\ 2 * im c1 = snd (func_pauli E mu T Dm Dp it) /\
  im e0 = E * im c0 /\ im e1 = E * im c1.
Proof.
  intros quad dg E mu T Dm Dp it H. rewrite func_pauli_eq. unfold in_band.
  destruct it as [|[|[|[|it]]]]; [| | | |lia]; cbn -[PI within Rdiv]; unfold iPI; simpl (Nat.eqb _ _);
    cbn [orb]; try destruct (within _ _ _); repeat split; rewrite ?im_add, ?im_mul, ?re_add, ?im_add; rsimp; ring.
Qed.
