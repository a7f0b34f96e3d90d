(** Property C52: the amplitudes of func_1vN (specfunc.py 55-129, itype 0) are the integrals they stand for. *)
From Coq Require Import Reals Lra Lia.
From Verif Require Import CRing SpecFunc Integrals.
Open Scope R_scope.

Local Notation Cr := (Cx RRing).
(** What is asked of an amplitude, in units x = (E - mu)/T: for the lead function g, the real part is the principal value
    of the integral of g(x)/(x - alpha) over the band and the imaginary part -pi g(alpha) when alpha lies in the band:
    the value of that integral with x - alpha + i0 in the denominator. *)
Definition amplitude (g : R -> R) (Rm alpha Rp : R) (z : Cr) : Prop :=
  is_pv g Rm alpha Rp (re z) /\
  (Rm < alpha < Rp -> im z = - PI * g alpha) /\ (alpha < Rm \/ Rp < alpha -> im z = 0).

(** ** the integral of the Fermi function *)
Definition softplus (x : R) : R := ln (1 + exp (- x)).
Lemma softplus_bounds : forall x, 0 < softplus x <= exp (- x).
Proof.
  intros x. unfold softplus. pose proof (exp_pos (- x)) as P. split.
  - rewrite <- ln_1. apply ln_increasing; lra.
  - destruct (Req_dec (exp (- x)) 0) as [E|N]; [lra|]. left. rewrite <- (ln_exp (exp (- x))) at 2. apply ln_increasing; [lra|]. apply exp_ineq1. auto.
Qed.
Lemma softplus_decr : forall x y, x <= y -> softplus y <= softplus x.
Proof.
  intros x y [H|<-]; [|lra]. unfold softplus. left. pose proof (exp_pos (- y)). apply ln_increasing; [lra|]. assert (exp (- y) < exp (- x)) by (apply exp_increasing; lra). lra.
Qed.
Lemma softplus_left : forall x, softplus x = - x + softplus (- x).
Proof.
  intros x. unfold softplus. rewrite Ropp_involutive. pose proof (exp_pos x). pose proof (exp_pos (- x)).
  rewrite <- (ln_exp (- x)) at 2. rewrite <- ln_mult by lra. f_equal. rewrite Rmult_plus_distr_l, Rmult_1_r, <- exp_plus.
  replace (- x + x) with 0 by ring. rewrite exp_0. ring.
Qed.
Lemma fermi_prim : forall x, derivable_pt_lim (fun y => - softplus y) x (fermi x).
Proof.
  intros x. unfold softplus, fermi. pose proof (exp_pos x). pose proof (exp_pos (- x)) as P.
  replace (/ (1 + exp x)) with (- (/ (1 + exp (- x)) * (0 + exp (- x) * (- 1)))).
  - apply (derivable_pt_lim_opp (fun y => ln (1 + exp (- y)))). apply (derivable_pt_lim_comp (fun y => 1 + exp (- y)) ln); [|apply derivable_pt_lim_ln; lra].
    apply (derivable_pt_lim_plus (fct_cte 1) (fun y => exp (- y))); [apply derivable_pt_lim_const|].
    apply (derivable_pt_lim_comp (fun y => - y) exp); [|apply derivable_pt_lim_exp]. apply (derivable_pt_lim_opp id). apply derivable_pt_lim_id.
  - rewrite exp_Ropp. field. split; lra.
Qed.
Lemma fermi_deriv : forall x, derivable_pt_lim fermi x (- (exp x / ((1 + exp x) * (1 + exp x)))).
Proof.
  intros x. unfold fermi. pose proof (exp_pos x).
  replace (- (exp x / ((1 + exp x) * (1 + exp x)))) with ((0 * (1 + exp x) - (0 + exp x) * 1) / Rsqr (1 + exp x)) by (unfold Rsqr; field; lra).
  assert (D : derivable_pt_lim (div_fct (fct_cte 1) (plus_fct (fct_cte 1) exp)) x ((0 * (plus_fct (fct_cte 1) exp) x - (0 + exp x) * fct_cte 1 x) / Rsqr ((plus_fct (fct_cte 1) exp) x))).
  { apply derivable_pt_lim_div; [apply derivable_pt_lim_const| |unfold plus_fct, fct_cte; lra]. apply derivable_pt_lim_plus; [apply derivable_pt_lim_const|apply derivable_pt_lim_exp]. }
  intros eps He. destruct (D eps He) as (d & Hd). exists d. intros h H1 H2. specialize (Hd h H1 H2). unfold div_fct, plus_fct, fct_cte in Hd.
  unfold Rdiv in Hd at 2 3. rewrite !Rmult_1_l in Hd. exact Hd.
Qed.
Lemma fermi_cont : forall x, continuity_pt fermi x.
Proof. intros x. apply derivable_continuous_pt. exists (- (exp x / ((1 + exp x) * (1 + exp x)))). apply fermi_deriv. Qed.
Lemma fermi_int : forall a b, a <= b -> is_int fermi a b (softplus a - softplus b).
Proof.
  intros a b Hab. replace (softplus a - softplus b) with (- softplus b - - softplus a) by ring.
  apply (is_int_prim (fun y => - softplus y)); auto; intros; [apply fermi_prim|apply fermi_cont].
Qed.
(** with the overflow guard of fermi_func *)
Lemma fermi_func_int : forall a b, a <= b -> exists w, is_int fermi_func a b w /\ Rabs (w - (softplus a - softplus b)) <= exp (- cut) /\
  (b <= cut -> w = softplus a - softplus b).
Proof.
  intros a b Hab. destruct (Rle_dec b cut) as [L|L]; [|destruct (Rlt_dec cut a) as [L'|L']].
  - exists (softplus a - softplus b). split; [apply is_int_ext with fermi; auto using fermi_int; intros x Hx; symmetry; apply fermi_below; lra|].
    split; auto. rewrite Rminus_diag_eq, Rabs_R0 by auto. left. apply exp_pos.
  - exists 0. split; [apply is_int_ext with (fun _ => 0); auto; [intros x Hx; symmetry; apply fermi_above; lra|]|split; [|intros; lra]].
    + pose proof (is_int_const 0 a b) as X. rewrite Rmult_0_l in X. exact X.
    + pose proof (softplus_bounds a). pose proof (softplus_bounds b). pose proof (softplus_decr a b Hab).
      assert (exp (- a) < exp (- cut)) by (apply exp_increasing; lra). rewrite Rabs_left1; lra.
  - exists (softplus a - softplus cut + 0). split; [|split; [|intros; lra]].
    + apply is_int_chasles with cut; [apply is_int_ext with fermi; [lra|intros x Hx; symmetry; apply fermi_below; lra|apply fermi_int; lra]|].
      apply is_int_first; [lra|]. intros x Hx. apply fermi_above. lra.
    + pose proof (softplus_bounds cut). pose proof (softplus_bounds b). assert (softplus b <= softplus cut) by (apply softplus_decr; lra). rewrite Rabs_left1; lra.
Qed.
Definition code_softplus (x : R) : R := if Rlt_dec x (-40) then - x else ln (1 + exp (- x)).
Lemma code_softplus_err : forall x, Rabs (code_softplus x - softplus x) <= exp (-40) /\ (-40 <= x -> code_softplus x = softplus x).
Proof.
  intros x. unfold code_softplus. destruct (Rlt_dec x (-40)) as [L|L].
  - split; [|intros; lra]. rewrite (softplus_left x). pose proof (softplus_bounds (- x)) as B. rewrite Ropp_involutive in B.
    assert (exp x < exp (-40)) by (apply exp_increasing; lra). rewrite Rabs_left1; lra.
  - split; auto. unfold softplus. rewrite Rminus_diag_eq, Rabs_R0 by auto. left. apply exp_pos.
Qed.

(** *** C52 *)
(** [quad alpha Rm Rp] is scipy's quad with weight='cauchy': assumed to return the principal value for the Fermi function.
    The energy amplitudes contain the approximation of log(1+exp(-R)) by -R below -40 and the guard of fermi_func. *)
Theorem C52_amplitudes : forall quad dg Ecb mu T Dm Dp, 0 < T -> Dm < Dp -> Ecb <> Dm -> Ecb <> Dp ->
  let Rm := (Dm - mu) / T in let Rp := (Dp - mu) / T in let alpha := (Ecb - mu) / T in
  is_pv fermi_func Rm alpha Rp (quad alpha Rm Rp) ->
  let '(cur0, cur1, en0, en1) := func_1vN quad dg Ecb mu T Dm Dp 0 in
  amplitude fermi_func Rm alpha Rp cur0 /\
  amplitude (fun x => fermi_func x - 1) Rm alpha Rp cur1 /\
  exists err, Rabs err <= 3 * T * exp (-40) /\ (-40 <= Rm -> Rp <= cut -> err = 0) /\
    amplitude (fun x => (mu + T * x) * fermi_func x) Rm alpha Rp (radd en0 (@mkC RRing err 0)) /\
    amplitude (fun x => (mu + T * x) * (fermi_func x - 1)) Rm alpha Rp (radd en1 (@mkC RRing err 0)).
Proof.
  intros quad dg Ecb mu T Dm Dp HT HD N1 N2 Rm Rp alpha HQ.
  assert (HR : Rm < Rp) by (unfold Rm, Rp, Rdiv; apply Rmult_lt_compat_r; [apply Rinv_0_lt_compat; auto|lra]).
  assert (Cm : Dm = mu + T * Rm) by (unfold Rm; field; lra). assert (Cp : Dp = mu + T * Rp) by (unfold Rp; field; lra).
  assert (Ca : Ecb = mu + T * alpha) by (unfold alpha; field; lra).
  assert (A1 : alpha <> Rm) by (intros E; apply N1; rewrite Ca, Cm, E; auto). assert (A2 : alpha <> Rp) by (intros E; apply N2; rewrite Ca, Cp, E; auto).
  destruct (fermi_func_int Rm Rp) as (w & Hw & Ew & Xw); [lra|].
  destruct (code_softplus_err Rm) as (Em & Xm). destruct (code_softplus_err Rp) as (Ep & Xp).
  unfold func_1vN. fold alpha Rm Rp. fold (code_softplus Rm) (code_softplus Rp).
  set (q := quad alpha Rm Rp) in *. set (lg := ln (Rabs ((Rm - alpha) / (Rp - alpha)))).
  set (c0 := T * (code_softplus Rm - code_softplus Rp)).
  assert (LG : lg = - (ln (Rabs (Rp - alpha)) - ln (Rabs (Rm - alpha)))).
  { unfold lg. unfold Rdiv. rewrite Rabs_mult, Rabs_inv. rewrite ln_mult; [|apply Rabs_pos_lt; lra|apply Rinv_0_lt_compat, Rabs_pos_lt; lra].
    rewrite ln_Rinv by (apply Rabs_pos_lt; lra). ring. }
  assert (P1 : is_pv (fun _ => 1) Rm alpha Rp (- lg)) by (rewrite LG, Ropp_involutive; apply pv_pole; auto).
  assert (PF : is_pv (fun x => fermi_func x - 1) Rm alpha Rp (q + lg)).
  { apply pv_ext with (fun x => fermi_func x + (-1) * 1); [auto|intros; ring|]. replace (q + lg) with (q + (-1) * (- lg)) by ring. apply pv_lin; auto. }
  assert (BF : forall x, Rabs (fermi_func x) <= 1) by (intros x; pose proof (fermi_func_range x); rewrite Rabs_pos_eq; lra).
  assert (W1 : is_pv (fun x => (x - alpha) * fermi_func x) Rm alpha Rp w) by (apply pv_regular with 1; auto).
  assert (I1 : is_int (fun x => fermi_func x - 1) Rm Rp (w - (Rp - Rm))).
  { apply is_int_ext with (fun x => fermi_func x + (-1) * 1); [lra|intros; ring|]. replace (w - (Rp - Rm)) with (w + (-1) * (1 * (Rp - Rm))) by ring. apply is_int_lin; auto. apply is_int_const. }
  assert (W2 : is_pv (fun x => (x - alpha) * (fermi_func x - 1)) Rm alpha Rp (w - (Rp - Rm))).
  { apply pv_regular with 1; auto. intros x _. pose proof (fermi_func_range x). rewrite Rabs_left1; lra. }
  assert (PE0 : is_pv (fun x => (mu + T * x) * fermi_func x) Rm alpha Rp (T * w + Ecb * q)).
  { apply pv_ext with (fun x => (0 * fermi_func x + Ecb * fermi_func x) + T * ((x - alpha) * fermi_func x)); [auto|intros; rewrite Ca; ring|].
    replace (T * w + Ecb * q) with ((0 * q + Ecb * q) + T * w) by ring. apply pv_lin; auto.
    apply pv_ext with (fun x => fermi_func x + (Ecb - 1) * fermi_func x); [auto|intros; ring|]. replace (0 * q + Ecb * q) with (q + (Ecb - 1) * q) by ring. apply pv_lin; auto. }
  assert (PE1 : is_pv (fun x => (mu + T * x) * (fermi_func x - 1)) Rm alpha Rp (T * (w - (Rp - Rm)) + Ecb * (q + lg))).
  { apply pv_ext with (fun x => ((fermi_func x - 1) + (Ecb - 1) * (fermi_func x - 1)) + T * ((x - alpha) * (fermi_func x - 1))); [auto|intros; rewrite Ca; ring|].
    replace (T * (w - (Rp - Rm)) + Ecb * (q + lg)) with (((q + lg) + (Ecb - 1) * (q + lg)) + T * (w - (Rp - Rm))) by ring. apply pv_lin; auto. apply pv_lin; auto. }
  assert (EW : forall P : Prop, (Rm < alpha < Rp -> within Rm alpha Rp = true -> P) -> (alpha < Rm \/ Rp < alpha -> within Rm alpha Rp = false -> P) -> P).
  { intros P X Y. destruct (within Rm alpha Rp) eqn:E.
    - apply X; auto. apply within_true. auto.
    - apply Y; auto. unfold within in E. destruct (Rlt_dec Rm alpha); [destruct (Rlt_dec alpha Rp); [discriminate|]|]; lra. }
  unfold amplitude. split; [|split].
  - rewrite ?re_add, ?im_add, ?re_mul, ?im_mul; rsimp. split; [exact HQ|]. apply EW; intros O E; rewrite E; cbn [iPI]; split; intros; try lra.
  - rewrite ?re_add, ?im_add, ?re_mul, ?im_mul; rsimp. split; [|apply EW; intros O E; rewrite E; cbn [iPI]; split; intros; lra].
    replace (q + lg + 0) with (q + lg) by ring. exact PF.
  - exists (T * w - c0). split; [|split; [|split]].
    + replace (T * w - c0) with (T * ((w - (softplus Rm - softplus Rp)) - ((code_softplus Rm - softplus Rm) - (code_softplus Rp - softplus Rp)))) by (unfold c0; ring).
      rewrite Rabs_mult, (Rabs_pos_eq T) by lra. replace (3 * T * exp (-40)) with (T * (3 * exp (-40))) by ring. apply Rmult_le_compat_l; [lra|].
      assert (exp (- cut) <= exp (-40)) by (left; apply exp_increasing; unfold cut; lra).
      assert (TR : forall x y, Rabs (x - y) <= Rabs x + Rabs y) by (intros x y; unfold Rminus; rewrite <- (Rabs_Ropp y); apply Rabs_triang).
      eapply Rle_trans; [apply TR|]. pose proof (TR (code_softplus Rm - softplus Rm) (code_softplus Rp - softplus Rp)). lra.
    + intros B1 B2. unfold c0. rewrite (Xw B2), (Xm B1), (Xp ltac:(lra)). ring.
    + rewrite ?re_add, ?im_add, ?re_mul, ?im_mul, ?re_add, ?im_add; rsimp. fold c0. split; [|apply EW; intros O E; rewrite E; cbn [iPI]; split; intros; try lra].
      * match goal with |- is_pv _ _ _ _ ?v => replace v with (T * w + Ecb * q) by ring end. exact PE0.
      * match goal with |- @eq _ ?u ?v => change (@eq R u v) end. rewrite <- Ca. ring.
    + rewrite ?re_add, ?im_add, ?re_mul, ?im_mul, ?re_add, ?im_add; rsimp. fold c0. split; [|apply EW; intros O E; rewrite E; cbn [iPI]; split; intros; try lra].
      * match goal with |- is_pv _ _ _ _ ?v => replace v with (T * (w - (Rp - Rm)) + Ecb * (q + lg)) by (rewrite Cm, Cp; ring) end. exact PE1.
      * match goal with |- @eq _ ?u ?v => change (@eq R u v) end. rewrite <- Ca. ring.
Qed.
Print Assumptions C52_amplitudes.

(** *** non-vacuity: the contract on quad can be met, whatever the band below the cut *)
Definition quot (al x : R) : R := if Req_EM_T x al then - (exp al / ((1 + exp al) * (1 + exp al))) else (fermi x - fermi al) / (x - al).
Lemma quot_cont : forall al x, continuity_pt (quot al) x.
Proof.
  intros al x. destruct (Req_EM_T x al) as [->|N].
  - intros eps He. destruct (fermi_deriv al eps He) as (d & Hd). exists d. split; [apply cond_pos|]. intros y ((_ & Ny) & Hy).
    unfold quot at 2. destruct (Req_EM_T al al) as [_|F]; [|congruence]. unfold quot. destruct (Req_EM_T y al) as [E|N]; [congruence|].
    simpl in *. unfold R_dist in *. specialize (Hd (y - al)). replace (al + (y - al)) with y in Hd by ring. apply Hd; auto. lra.
  - apply continuity_pt_locally_ext with (f := fun y => (fermi y - fermi al) * / (y - al)) (a := Rabs (x - al)).
    + apply Rabs_pos_lt. lra.
    + intros y Hy. unfold quot. destruct (Req_EM_T y al) as [->|_]; [|reflexivity]. unfold R_dist in Hy. rewrite Rabs_minus_sym in Hy. lra.
    + apply (continuity_pt_mult (fun y => fermi y - fermi al) (fun y => / (y - al))).
      * apply (continuity_pt_minus fermi (fct_cte (fermi al))); [apply fermi_cont|apply continuity_pt_const; intros ? ?; reflexivity].
      * apply (continuity_pt_inv (fun y => y - al)); [|lra]. apply (continuity_pt_minus id (fct_cte al)); [apply derivable_continuous_pt, derivable_pt_id|apply continuity_pt_const; intros ? ?; reflexivity].
Qed.
Lemma fermi_pv_exists : forall a al b, a < b -> al <> a -> al <> b -> b <= cut -> exists v, is_pv fermi_func a al b v.
Proof.
  intros a al b Hab N1 N2 Hb. assert (C : forall x, a <= x <= b -> continuity_pt (quot al) x) by (intros; apply quot_cont).
  destruct (is_int_cont (quot al) a b) as (v & Hv); [lra|auto|].
  destruct (continuity_ab_maj (quot al) a b) as (xM & HM & _); [lra|auto|]. destruct (continuity_ab_min (quot al) a b) as (xm & Hm & _); [lra|auto|].
  exists (v + fermi al * (ln (Rabs (b - al)) - ln (Rabs (a - al)))).
  apply pv_ext with (fun x => (x - al) * quot al x + fermi al * 1); auto.
  - intros x Hx N. rewrite fermi_below by lra. unfold quot. destruct (Req_EM_T x al); [congruence|]. field. lra.
  - apply pv_lin; auto; [|apply pv_pole; auto]. apply pv_regular with (Rabs (quot al xM) + Rabs (quot al xm)); auto.
    intros x Hx. specialize (HM x Hx). specialize (Hm x Hx). unfold Rabs. repeat destruct Rcase_abs; lra.
Qed.
Example C52_case : exists quad, let Rm := (-10 - 1) / 2 in let Rp := (10 - 1) / 2 in let alpha := (3 - 1) / 2 in
  is_pv fermi_func Rm alpha Rp (quad alpha Rm Rp) /\
  forall dg, let '(cur0, cur1, en0, en1) := func_1vN quad dg 3 1 2 (-10) 10 0 in
    amplitude fermi_func Rm alpha Rp cur0 /\ im cur0 = - PI / (1 + exp 1) /\
    amplitude (fun x => (1 + 2 * x) * (fermi_func x - 1)) Rm alpha Rp en1 /\ im en1 <> 0.
Proof.
  destruct (fermi_pv_exists ((-10 - 1) / 2) ((3 - 1) / 2) ((10 - 1) / 2)) as (v & Hv); try (unfold cut; lra).
  exists (fun _ _ _ => v). intros Rm Rp alpha. split; [exact Hv|]. intros dg.
  pose proof (C52_amplitudes (fun _ _ _ => v) dg 3 1 2 (-10) 10 ltac:(lra) ltac:(lra) ltac:(lra) ltac:(lra) Hv) as X.
  destruct (func_1vN _ _ _ _ _ _ _ _) as [[[cur0 cur1] en0] en1]. destruct X as (A0 & A1 & err & _ & Z & _ & E1).
  change (amplitude fermi_func Rm alpha Rp cur0) in A0. change (amplitude (fun x => (1 + 2 * x) * (fermi_func x - 1)) Rm alpha Rp (radd en1 (@mkC RRing err 0))) in E1.
  rewrite Z in E1 by (unfold cut, Rm, Rp; lra).
  match type of E1 with amplitude _ _ _ _ ?z => assert (EE : z = en1) end.
  { apply cplx_eq; rewrite ?re_add, ?im_add; rsimp; cbn [re im]; apply Rplus_0_r. }
  rewrite EE in E1. assert (IN : Rm < alpha < Rp) by (unfold Rm, alpha, Rp; lra).
  assert (FA : fermi_func alpha = / (1 + exp 1)) by (rewrite fermi_below by (unfold alpha, cut; lra); unfold fermi; do 2 f_equal; f_equal; unfold alpha; lra).
  split; [exact A0|]. split; [|split; [exact E1|]].
  - destruct A0 as (_ & I & _). rewrite (I IN), FA. unfold Rdiv. reflexivity.
  - destruct E1 as (_ & I & _). rewrite (I IN), FA. pose proof PI_RGT_0. pose proof (exp_pos 1).
    assert (0 < / (1 + exp 1) < 1) by (pose proof (fermi_range 1) as F; unfold fermi in F; exact F). replace (1 + 2 * alpha) with 3 by (unfold alpha; lra). nra.
Qed.
Print Assumptions C52_case.

(** *** itype 1 (digamma approximation): the same decomposition misses mu *)
(** The energy amplitude is the integral of f over the band plus Ecb times the particle amplitude (C52_amplitudes for itype 0).
    With itype 1 the added constant is that integral minus mu, however wide the band: lines 113-114 use Dm/T and Dp/T. *)
Theorem C52_wide_band_offset : forall quad dg Ecb mu T Dm Dp, 0 < T -> (Dm - mu) / T <= -40 -> 40 <= (Dp - mu) / T ->
  let '(cur0, _, en0, _) := func_1vN quad dg Ecb mu T Dm Dp 1 in
  exists w, is_int fermi_func ((Dm - mu) / T) ((Dp - mu) / T) w /\ Rabs (re en0 - Ecb * re cur0 - (T * w - mu)) <= 3 * T * exp (-40).
Proof.
  intros quad dg Ecb mu T Dm Dp HT HM HP. unfold func_1vN. destruct (fermi_func_int ((Dm - mu) / T) ((Dp - mu) / T)) as (w & Hw & Ew & _); [lra|].
  exists w. split; [exact Hw|]. rewrite ?re_add, ?re_mul; rsimp. set (c := dg _ - _).
  set (Rm := (Dm - mu) / T) in *. set (Rp := (Dp - mu) / T) in *. assert (Cm : Dm = mu + T * Rm) by (unfold Rm; field; lra).
  pose proof (softplus_bounds (- Rm)) as B1. rewrite Ropp_involutive in B1. pose proof (softplus_bounds Rp) as B2. rewrite (softplus_left Rm) in Ew.
  assert (MO : forall x y, x <= y -> exp x <= exp y) by (intros x y [H|<-]; [left; apply exp_increasing; auto|lra]).
  pose proof (MO Rm (-40) HM). pose proof (MO (- Rp) (-40) ltac:(lra)).
  assert (exp (- cut) <= exp (-40)) by (left; apply exp_increasing; unfold cut; lra).
  replace (- T * (Dm / T) + (Ecb * c - 0 * (- PI * fermi_func ((Ecb - mu) / T))) - Ecb * c - (T * w - mu)) with (T * (- Rm - w)) by (rewrite Cm; field; lra).
  rewrite Rabs_mult, (Rabs_pos_eq T) by lra. replace (3 * T * exp (-40)) with (T * (3 * exp (-40))) by ring. apply Rmult_le_compat_l; [lra|].
  unfold Rabs in *. repeat destruct Rcase_abs; lra.
Qed.
Theorem C52_wide_band_energy_refuted : exists Ecb mu T Dm Dp w, 0 < T /\ Dm < Ecb < Dp /\ (Dm - mu) / T <= -40 /\ 40 <= (Dp - mu) / T /\
  is_int fermi_func ((Dm - mu) / T) ((Dp - mu) / T) w /\
  forall quad dg, let '(cur0, _, en0, _) := func_1vN quad dg Ecb mu T Dm Dp 1 in re en0 - Ecb * re cur0 < T * w - 9 / 10.
Proof.
  assert (A : forall q d, exists w, is_int fermi_func ((-100 - 1) / 1) ((100 - 1) / 1) w /\
    let '(cur0, _, en0, _) := func_1vN q d 2 1 1 (-100) 100 1 in re en0 - 2 * re cur0 < 1 * w - 9 / 10).
  { intros q d. pose proof (C52_wide_band_offset q d 2 1 1 (-100) 100 ltac:(lra) ltac:(lra) ltac:(lra)) as X.
    destruct (func_1vN q d 2 1 1 (-100) 100 1) as [[[c0 c1] e0] e1]. destruct X as (w & Hw & B). exists w. split; [exact Hw|].
    assert (E : exp (-40) < / 40).
    { replace (-40) with (- (40)) by ring. rewrite exp_Ropp. apply Rinv_lt_contravar; [pose proof (exp_pos 40); nra|]. pose proof (exp_ineq1 40 ltac:(lra)). lra. }
    change (re e0 : R) with (re e0) in *. revert B. unfold Rabs. destruct Rcase_abs; intros; lra. }
  destruct (A (fun _ _ _ => 0) (fun _ => 0)) as (w & Hw & _). exists 2, 1, 1, (-100), 100, w. repeat (split; [lra|]). split; [exact Hw|].
  intros q d. destruct (A q d) as (w' & Hw' & L). rewrite (is_int_unique _ _ _ _ _ Hw Hw'). exact L.
Qed.
Print Assumptions C52_wide_band_energy_refuted.
