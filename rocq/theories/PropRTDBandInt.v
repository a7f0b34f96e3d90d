(** C66, continued: band widths in the code's integrals. *)
From Coq Require Import String List Arith Lia ZArith Bool Permutation Ring Reals Lra.
From Verif Require Import Base DMIndex CRing SpecFunc RTDInt RTDGen Layout Kernel RTDK RTDNd PropRTDBand.
Import ListNotations.
Open Scope nat_scope.
Local Notation length := List.length.
Local Notation Cr := (Cx RRing).
Add Ring RrBI : (rth RRing).
Add Ring CrBI : (rth Cr).

Section Shift.
Variables (psi psi1 : Cr -> Cr) (psi_re psi1_im psi2_re : R -> R).
Local Open Scope R_scope.
(** the change of the logarithm in phi *)
Definition dlog (Dp Dm Dp' Dm' : R) : R := ln (/ 2 * (Rabs Dp' + Rabs Dm') / (2 * PI)) - ln (/ 2 * (Rabs Dp + Rabs Dm) / (2 * PI)).
Lemma phi_shift : forall x Dp Dm Dp' Dm', phi psi_re x Dp' Dm' = phi psi_re x Dp Dm + dlog Dp Dm Dp' Dm'.
Proof. intros. unfold phi, dlog. ring. Qed.
Lemma delta_phi_shift : forall x y Dp Dm Dp' Dm', delta_phi psi_re x y Dp' Dm' = delta_phi psi_re x y Dp Dm.
Proof. intros. unfold delta_phi. rewrite (phi_shift x Dp Dm Dp' Dm'), (phi_shift y Dp Dm Dp' Dm'). ring. Qed.
Definition slope (a b : R) : R := if Rlt_dec (Rabs (a - b)) E_MIN then diff_fermi a else 1 / (a - b) * (fermi_func a - fermi_func b).
Lemma D_equal_shift : forall p1 p2 a m b Dp Dm Dp' Dm', D_equal_T psi_re psi1_im psi2_re p1 p2 a m b Dp' Dm' =
  D_equal_T psi_re psi1_im psi2_re p1 p2 a m b Dp Dm + p1 * p2 * (dlog Dp Dm Dp' Dm' * slope a b).
Proof.
  intros. unfold D_equal_T, slope. rewrite (delta_phi_shift a b Dp Dm Dp' Dm').
  destruct (Rlt_dec (Rabs (a - b)) E_MIN); destruct (Rlt_dec (Rabs m) E_MIN).
  - rewrite (phi_shift (- a) Dp Dm Dp' Dm'). ring.
  - rewrite (phi_shift (m - a) Dp Dm Dp' Dm'). ring.
  - rewrite (phi_shift (- a) Dp Dm Dp' Dm'), (phi_shift (- b) Dp Dm Dp' Dm'). ring.
  - rewrite (phi_shift (m - a) Dp Dm Dp' Dm'), (phi_shift (m - b) Dp Dm Dp' Dm'). ring.
Qed.
Lemma X_equal_shift : forall p1 p2 a m b Dp Dm Dp' Dm',
  X_equal_T psi_re psi1_im psi2_re p1 p2 a m b Dp' Dm' = X_equal_T psi_re psi1_im psi2_re p1 p2 a m b Dp Dm.
Proof. intros. unfold X_equal_T. now rewrite !(delta_phi_shift _ _ Dp Dm Dp' Dm'). Qed.

(** the sum over the poles without digamma *)
Definition pole0 (z1 z3 T1 mu1 : R) (nr : R * R) : Cr :=
  let x := T1 / fst nr in rmul (rmul (crdiv r1 (cc x (- (z3 + mu1)))) (crdiv r1 (cc x (- (z1 + mu1))))) (cc (snd nr) 0).
Definition gen_slope (z1 z3 T1 mu1 : R) (poles : list (R * R)) : Cr :=
  rmul (cc 0 (- (1))) (rmul (cc (1 / 4) 0) (rmul (rsum (pole0 z1 z3 T1 mu1) poles) (cc 0 (- (8 * PI * T1))))).
Lemma D_pole_shift : forall lg lg' z1 z2 z3 T1 T2 mu1 mu2 l,
  rsum (D_pole psi lg' z1 z2 z3 T1 T2 mu1 mu2) l = radd (rsum (D_pole psi lg z1 z2 z3 T1 T2 mu1 mu2) l) (rmul (cc (lg' - lg) 0) (rsum (pole0 z1 z3 T1 mu1) l)).
Proof.
  intros. rewrite <- (rsum_mul_l Cr), <- (rsum_plus Cr). apply (rsum_ext Cr). intros nr _. unfold D_pole, pole0. cbv zeta.
  assert (A : forall a : Cr, rsub (cc lg' 0) a = radd (rsub (cc lg 0) a) (cc (lg' - lg) 0)) by (intros; apply cplx_eq; simpl; ring).
  rewrite A. ring.
Qed.
Lemma D_with_shift : forall lg lg' p z1 z2 z3 T1 T2 mu1 mu2 Dp Dm Dp' Dm' bR,
  kept ((Rabs Dp' + Rabs Dm') * / 2) T2 bR = kept ((Rabs Dp + Rabs Dm) * / 2) T2 bR ->
  rmul (cc 0 (- (1))) (D_with psi psi1 lg' 1 p z1 z2 z3 T1 T2 mu1 mu2 Dp' Dm' bR) =
  radd (rmul (cc 0 (- (1))) (D_with psi psi1 lg 1 p z1 z2 z3 T1 T2 mu1 mu2 Dp Dm bR))
    (rmul (cc p 0) (rmul (cc (lg' - lg) 0) (gen_slope z1 z3 T1 mu1 (kept ((Rabs Dp + Rabs Dm) * / 2) T2 bR)))).
Proof.
  intros. unfold D_with, gen_slope. cbv zeta. rewrite H, (D_pole_shift lg lg'). replace (1 * p) with p by ring.
  rewrite (@Rsub_def _ _ _ _ _ _ _ _ (rth Cr)). ring.
Qed.
End Shift.

Section Code.
Local Open Scope rng_scope.
Variables (psi psi1 : Cr -> Cr) (psi_re psi1_im psi2_re : R -> R).
Variables (L : Lay) (nl : nat) (T : nat -> nat -> nat -> Cr) (Gam : nat -> Cr) (tm mu : nat -> R) (tmax : R).
Hypotheses (ND : forall c, NoDup (states L c)) (Top : states L (Z.of_nat (ly_ncharge L)) = []) (Bottom : states L (-1) = []).
Hypothesis AC : anticommute RRing L nl T Gam.
Local Notation amp := (amp RRing L nl T).
Local Notation prod4 := (prod4 RRing L nl T).
(** every amplitude vanishes or lies above the cutoffs *)
Definition above_cutoff : Prop := (0 < tmax)%R /\ forall z, amp z -> z = 0 \/ (1 / 10 ^ 10 * tmax < re z * re z + im z * im z)%R.
Hypothesis BIG : above_cutoff.

Definition n2 (z : Cr) : R := (re z * re z + im z * im z)%R.
Lemma n2_mul : forall x y, n2 (x * y) = (n2 x * n2 y)%R.
Proof. intros x y. unfold n2. rewrite re_mul, im_mul. simpl. ring. Qed.
Lemma n2_pos : forall z, (0 <= n2 z)%R.
Proof. intros z. unfold n2. pose proof (Rle_0_sqr (re z)). pose proof (Rle_0_sqr (im z)). unfold Rsqr in *. lra. Qed.
Lemma n2_zero : forall z, n2 z = 0%R -> z = 0.
Proof.
  intros z H. unfold n2 in H. pose proof (Rle_0_sqr (re z)). pose proof (Rle_0_sqr (im z)). unfold Rsqr in *.
  apply cplx_eq; apply (Rsqr_0_uniq _); unfold Rsqr; lra.
Qed.
Lemma mod_gt : forall z c, (0 <= c)%R -> (c * c < n2 z)%R -> (c < cmod_ z)%R.
Proof. intros z c Hc H. unfold cmod_. fold (n2 z). rewrite <- (sqrt_square c Hc). apply sqrt_lt_1; [apply Rmult_le_pos; auto|apply n2_pos|exact H]. Qed.
Lemma prod_gt : forall a b c d, (0 <= a)%R -> (0 <= c)%R -> (a < b)%R -> (c < d)%R -> (a * c < b * d)%R.
Proof. intros. apply Rle_lt_trans with (a * d)%R; [apply Rmult_le_compat_l; lra|]. apply Rmult_lt_compat_r; lra. Qed.
Lemma code_cutoffs : cut_exact RRing L nl T cut_is0 (cut_lt2 tmax) (cut_gt3 tmax).
Proof.
  destruct BIG as [P B]. set (c := (1 / 10 ^ 10 * tmax)%R) in *. fold n2 in B.
  assert (Hc : (0 <= c)%R) by (unfold c; apply Rmult_le_pos; lra).
  assert (B' : forall z, amp z -> z = 0 \/ (c < n2 z)%R) by (intros z Hz; destruct (B z Hz); auto).
  assert (C2 : (0 <= c * c)%R) by (apply Rmult_le_pos; auto).
  split; [|split].
  - intros x _ H. unfold cut_is0 in H. destruct (Req_EM_T (cmod_ x) 0) as [E|]; [|discriminate]. apply n2_zero. apply sqrt_eq_0; [apply n2_pos|exact E].
  - intros x y Hx Hy H. unfold cut_lt2 in H. fold c in H. destruct (Rlt_dec (cmod_ (x * y)) c) as [E|]; [|discriminate].
    destruct (B' x Hx) as [->|Bx]; [ring|]. destruct (B' y Hy) as [->|By]; [ring|]. exfalso.
    assert ((c < cmod_ (x * y))%R); [|lra]. apply mod_gt; auto. rewrite n2_mul. now apply prod_gt.
  - intros t (x & y & z & w & Hx & Hy & Hz & Hw & ->) H. unfold cut_gt3 in H.
    destruct (B' x Hx) as [->|Bx]; [ring|]. destruct (B' y Hy) as [->|By]; [ring|].
    destruct (B' z Hz) as [->|Bz]; [ring|]. destruct (B' w Hw) as [->|Bw]; [ring|]. exfalso.
    replace (1 / 10 ^ 20 * tmax ^ 2)%R with (c * c)%R in H by (unfold c; field).
    destruct (Rlt_dec (c * c) (cmod_ (x * y * z * w))) as [|E]; [discriminate|]. apply E. apply mod_gt; auto. rewrite !n2_mul.
    pose proof (prod_gt c (n2 x) c (n2 y) Hc Hc Bx By) as P1. pose proof (prod_gt c (n2 z) c (n2 w) Hc Hc Bz Bw) as P2.
    rewrite (Rmult_assoc (n2 x * n2 y)). now apply prod_gt.
Qed.

Lemma band_nonneg : forall dl r, (0 <= band dl r)%R.
Proof. intros. unfold band. pose proof (Rabs_pos (snd (dl r))). pose proof (Rabs_pos (fst (dl r))). lra. Qed.
Lemma half_band : forall d, (0 <= d)%R -> ((Rabs (d / 2) + Rabs (d / 2)) * / 2 = d / 2)%R.
Proof. intros d H. rewrite !Rabs_right by lra. lra. Qed.
Lemma keld_IZR : forall p, (p = 1 \/ p = -1)%Z -> keld RRing p = cc (IZR p) 0.
Proof. intros p [-> | ->]; apply cplx_eq; simpl; lra. Qed.

Variables (ns : nat) (E : nat -> R) (tl : nat -> nat -> Cr) (pf : nat -> nat -> bool -> R) (inv : R -> R) (imgt : Cr -> bool).
Local Notation F := (rtd_F tm mu).
Local Notation Fm := (rtd_Fm tm mu).
(** generate_kern and generate_current with the integrals [D] and [X] and the function phi of band widths [dl] *)
Definition code_kern (dl : nat -> R * R) (D X : Z -> Z -> R -> R -> R -> nat -> nat -> bool -> Cr) : bool -> Z * Z -> R :=
  rtd_kern RRing L nl E T pf PI F Fm (rtd_phi psi_re tm mu dl) D X cut_is0 (cut_lt2 tmax) (cut_gt3 tmax) (cut_im tmax) (lnn RRing L E inv)
    (snd_im RRing L nl E T PI F Fm (rtd_phi psi_re tm mu dl)) (snd_re RRing L nl E T PI F Fm (rtd_phi psi_re tm mu dl)).
Definition code_current (dl : nat -> R * R) (D X : Z -> Z -> R -> R -> R -> nat -> nat -> bool -> Cr) :=
  rtd_current RRing L nl E T pf PI (/ 2)%R F Fm (rtd_phi psi_re tm mu dl) D X cut_is0 (cut_lt2 tmax) (cut_gt3 tmax) (cut_im tmax) (lnn RRing L E inv)
    (snd_im RRing L nl E T PI F Fm (rtd_phi psi_re tm mu dl)) (snd_re RRing L nl E T PI F Fm (rtd_phi psi_re tm mu dl)).
Definition code_energy_current (dl : nat -> R * R) (D X : Z -> Z -> R -> R -> R -> nat -> nat -> bool -> Cr) :=
  rtd_energy_current RRing L nl ns E T tl pf PI (/ 2)%R F Fm (rtd_phi psi_re tm mu dl) (rtd_phim psi_re tm mu dl) D X cut_is0 (cut_lt2 tmax)
    (cut_gt3 tmax) (cut_im tmax) imgt (lnn RRing L E inv)
    (snd_im RRing L nl E T PI F Fm (rtd_phi psi_re tm mu dl)) (snd_re RRing L nl E T PI F Fm (rtd_phi psi_re tm mu dl)).
Local Notation iD bR dl := (rtd_D psi psi1 psi_re psi1_im psi2_re tm mu dl bR).
Local Notation iX bR dl := (rtd_X psi psi_re psi1_im psi2_re tm mu dl bR).
Local Notation iDl lg bR dl := (rtd_D_with psi psi1 psi_re psi1_im psi2_re tm mu dl bR lg).

(** ** Band widths *)
Section Widths.
Variables (dl dl' : nat -> R * R) (bR : list (R * R)).
(** no product of amplitudes has an imaginary part *)
Hypothesis RE : forall t, prod4 t -> cut_im tmax t = false.
(** the same poles enter the integrals between leads of different temperature *)
Hypothesis KE : forall r r', (r < nl)%nat -> (r' < nl)%nat -> (TMIN_X <= Rabs (tm r' - tm r))%R ->
  kept (band dl' r / 2) (tm r') bR = kept (band dl r / 2) (tm r') bR.
Definition kd (l : nat) : R := dlog (fst (dl l) / tm l) (snd (dl l) / tm l) (fst (dl' l) / tm l) (snd (dl' l) / tm l).
Definition Gw (r r' : nat) (E1 E3 : R) : Cr :=
  if Rlt_dec (Rabs (tm r' - tm r)) TMIN_D then
    cc (dlog (band dl r / 2 / tm r) (band dl r / 2 / tm r) (band dl' r / 2 / tm r) (band dl' r / 2 / tm r)
        * slope ((E3 - mu r) / tm r) ((E1 - mu r) / tm r) * PI / tm r)%R 0
  else rmul (cc (ln (band dl' r / 2 / (2 * PI * tm r)) - ln (band dl r / 2 / (2 * PI * tm r)))%R 0)
        (gen_slope (- E1)%R (- E3)%R (tm r) (mu r) (kept (band dl r / 2) (tm r') bR)).
Lemma widths_D : shifted RRing L nl T (cut_im tmax) Gw (iD bR dl) (iD bR dl').
Proof.
  intros p eta E1 E2 E3 r r' t Hp Hr Hr' Ht. rewrite (RE t Ht), (keld_IZR p Hp). unfold rtd_D, integralD_any, Gw.
  pose proof (band_nonneg dl r) as N1. pose proof (band_nonneg dl' r) as N2.
  destruct (Rlt_dec (Rabs (tm r' - tm r)) TMIN_D) as [Hlt|Hge].
  - unfold integralD. rewrite (D_equal_shift psi_re psi1_im psi2_re _ _ _ _ _ (band dl r / 2 / tm r) (band dl r / 2 / tm r)).
    apply cplx_eq; simpl; unfold Rdiv; match goal with |- @eq _ ?u ?v => change (@eq R u v) end; ring.
  - unfold D_integral. rewrite (D_with_shift psi psi1 (ln ((Rabs (band dl r / 2) + Rabs (band dl r / 2)) * / 2 / (2 * PI * tm r))) _ _ _ _ _ _ _ _ _
      (band dl r / 2) (band dl r / 2)).
    + rewrite !half_band by auto. reflexivity.
    + rewrite !half_band by auto. apply KE; auto. unfold TMIN_X, TMIN_D in *. lra.
Qed.
Lemma widths_X : forall p eta E1 E2 E3 r r' t, (r < nl)%nat -> (r' < nl)%nat -> prod4 t ->
  iX bR dl' p eta E1 E2 E3 r r' (cut_im tmax t) = iX bR dl p eta E1 E2 E3 r r' (cut_im tmax t).
Proof.
  intros p eta E1 E2 E3 r r' t Hr Hr' Ht. rewrite (RE t Ht). unfold rtd_X, integralX_any.
  destruct (Rlt_dec (Rabs (tm r' - tm r)) TMIN_X) as [Hlt|Hge].
  - unfold integralX. now rewrite (X_equal_shift psi_re psi1_im psi2_re _ _ _ _ _ (band dl r / 2 / tm r) (band dl r / 2 / tm r)).
  - unfold X_integral. rewrite !half_band by apply band_nonneg. rewrite KE by (auto; lra). reflexivity.
Qed.
Lemma widths_phi : forall l x, rtd_phi psi_re tm mu dl' l x = radd (rtd_phi psi_re tm mu dl l x : RRing) (kd l).
Proof. intros l x. unfold rtd_phi, kd. apply (phi_shift psi_re). Qed.
Lemma widths_phim : forall l x, rtd_phim psi_re tm mu dl' l x = radd (rtd_phim psi_re tm mu dl l x : RRing) (kd l).
Proof. intros l x. unfold rtd_phim, kd. apply (phi_shift psi_re). Qed.

Theorem C66_widths :
  (forall off ij, code_kern dl' (iD bR dl') (iX bR dl') off ij = code_kern dl (iD bR dl) (iX bR dl) off ij) /\
  (forall off phi l, code_current dl' (iD bR dl') (iX bR dl') off phi l = code_current dl (iD bR dl) (iX bR dl) off phi l) /\
  (forall k, (0 < k)%R -> (forall l, (l < nl)%nat -> (0 < tm l /\ 0 < band dl l /\ band dl' l = k * band dl l)%R) ->
   forall off nmany phi l, code_energy_current dl' (iD bR dl') (iX bR dl') off nmany phi l = code_energy_current dl (iD bR dl) (iX bR dl) off nmany phi l).
Proof.
  pose proof code_cutoffs as CE. split; [|split].
  - intros off ij. unfold code_kern.
    apply (C66_kernel RRing L nl T E pf PI F Fm (rtd_phi psi_re tm mu dl) (rtd_phi psi_re tm mu dl') inv _ _ _ _ _ _ _ _ Gam Gw kd ND Top Bottom AC CE widths_D widths_X widths_phi).
  - intros off phi l. unfold code_current.
    apply (C66_current RRing L nl T E pf PI (/ 2)%R F Fm (rtd_phi psi_re tm mu dl) (rtd_phi psi_re tm mu dl') inv _ _ _ _ _ _ _ _ Gam Gw kd ND Top Bottom AC CE widths_D widths_X widths_phi).
  - intros k Hk HB off nmany phi l. unfold code_energy_current.
    apply (C66_energy_current RRing L nl T ns E tl pf PI (/ 2)%R F Fm (rtd_phi psi_re tm mu dl) (rtd_phi psi_re tm mu dl') (rtd_phim psi_re tm mu dl) (rtd_phim psi_re tm mu dl')
      inv _ _ _ _ _ _ _ _ imgt Gam Gw kd ND Top Bottom AC CE widths_D widths_X widths_phi (ln k) widths_phim).
    intros l' Hl'. destruct (HB l' Hl') as (Ht & Hd & Hb). unfold kd, dlog.
    assert (AB : forall d : nat -> R * R, (/ 2 * (Rabs (fst (d l') / tm l') + Rabs (snd (d l') / tm l')) / (2 * PI) = / 2 * band d l' / (tm l' * (2 * PI)))%R).
    { intros d. unfold band, Rdiv. rewrite !Rabs_mult, (Rabs_right (/ tm l')) by (left; apply Rinv_0_lt_compat; lra). pose proof PI_RGT_0. field. lra. }
    rewrite !AB, Hb. pose proof PI_RGT_0 as HP.
    assert (P : (0 < / 2 * band dl l' / (tm l' * (2 * PI)))%R).
    { unfold Rdiv. apply Rmult_lt_0_compat; [lra|]. apply Rinv_0_lt_compat. apply Rmult_lt_0_compat; lra. }
    replace (/ 2 * (k * band dl l') / (tm l' * (2 * PI)))%R with (k * (/ 2 * band dl l' / (tm l' * (2 * PI))))%R by (field; lra).
    rewrite ln_mult by auto. simpl. ring.
Qed.
End Widths.

(** ** The logarithm of _D_integral *)
Section Log.
Variables (dl : nat -> R * R) (bR : list (R * R)) (lg : R -> R -> R -> R).
(** two leads have the same temperature, or temperatures that integralD distinguishes *)
Hypothesis TM : forall r r', (r < nl)%nat -> (r' < nl)%nat -> tm r' = tm r \/ (TMIN_D <= Rabs (tm r' - tm r))%R.
(** any other choice that agrees for equal temperatures *)
Hypothesis LG : forall D T1, lg D T1 T1 = ln (D / (2 * PI * T1)).
Definition Gl (r r' : nat) (E1 E3 : R) : Cr :=
  if Rlt_dec (Rabs (tm r' - tm r)) TMIN_D then 0
  else rmul (cc (lg (band dl r / 2) (tm r) (tm r') - ln (band dl r / 2 / (2 * PI * tm r)))%R 0)
        (gen_slope (- E1)%R (- E3)%R (tm r) (mu r) (kept (band dl r / 2) (tm r') bR)).
Lemma log_D : shifted RRing L nl T (cut_im tmax) Gl (iD bR dl) (iDl lg bR dl).
Proof.
  intros p eta E1 E2 E3 r r' t Hp Hr Hr' Ht. rewrite (keld_IZR p Hp). unfold rtd_D_with, rtd_D, integralD_any, integralD_with, Gl.
  pose proof (band_nonneg dl r) as N1. unfold D_integral. rewrite half_band by auto.
  destruct (Rlt_dec (Rabs (tm r' - tm r)) TMIN_D) as [Hlt|Hge].
  - destruct (TM r r' Hr Hr') as [->|Hge]; [|lra]. rewrite LG. destruct (cut_im tmax t); ring.
  - rewrite (D_with_shift psi psi1 (ln (band dl r / 2 / (2 * PI * tm r))) _ _ _ _ _ _ _ _ _ (band dl r / 2) (band dl r / 2)) by reflexivity.
    rewrite !half_band by auto. reflexivity.
Qed.
Lemma no_shift : forall (f : nat -> R -> R) l x, f l x = radd (f l x : RRing) 0.
Proof. intros. simpl. ring. Qed.
Theorem C66_logarithm :
  (forall off ij, code_kern dl (iDl lg bR dl) (iX bR dl) off ij = code_kern dl (iD bR dl) (iX bR dl) off ij) /\
  (forall off phi l, code_current dl (iDl lg bR dl) (iX bR dl) off phi l = code_current dl (iD bR dl) (iX bR dl) off phi l) /\
  (forall off nmany phi l, code_energy_current dl (iDl lg bR dl) (iX bR dl) off nmany phi l = code_energy_current dl (iD bR dl) (iX bR dl) off nmany phi l).
Proof.
  pose proof code_cutoffs as CE. split; [|split].
  - intros off ij. unfold code_kern.
    apply (C66_kernel RRing L nl T E pf PI F Fm (rtd_phi psi_re tm mu dl) (rtd_phi psi_re tm mu dl) inv _ _ _ _ _ _ _ _ Gam Gl (fun _ => 0) ND Top Bottom AC CE log_D); auto.
    intros. apply no_shift.
  - intros off phi l. unfold code_current.
    apply (C66_current RRing L nl T E pf PI (/ 2)%R F Fm (rtd_phi psi_re tm mu dl) (rtd_phi psi_re tm mu dl) inv _ _ _ _ _ _ _ _ Gam Gl (fun _ => 0) ND Top Bottom AC CE log_D); auto.
    intros. apply no_shift.
  - intros off nmany phi l. unfold code_energy_current.
    apply (C66_energy_current RRing L nl T ns E tl pf PI (/ 2)%R F Fm (rtd_phi psi_re tm mu dl) (rtd_phi psi_re tm mu dl) (rtd_phim psi_re tm mu dl) (rtd_phim psi_re tm mu dl)
      inv _ _ _ _ _ _ _ _ imgt Gam Gl (fun _ => 0) ND Top Bottom AC CE log_D) with (k0 := 0); auto; intros; apply no_shift.
Qed.
End Log.
End Code.
