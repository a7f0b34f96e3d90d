(** C73: the digamma function of the compiled module and polygamma(U, 0) are the digamma function up to the truncation of the asymptotic series. *)
From Coq Require Import Reals List Arith ZArith Lra Lia Psatz.
From Verif Require Import CplxR Polygamma PropPolygamma PropDigamma CDigamma.
Import ListNotations.
Local Open Scope R_scope.
Add Ring C_ringE : C_ring (power_tac C_power [Rpow_tac]).
Add Field C_fieldE : C_field (power_tac C_power [Rpow_tac]).

Lemma Rabs_le_inv : forall x y, Rabs x <= y -> - y <= x <= y.
Proof. intros x y H. assert (A := Rle_abs x). assert (B := Rle_abs (- x)). rewrite Rabs_Ropp in B. lra. Qed.
(** ** Derivatives of complex functions of a real variable *)
Definition cder (f : R -> C) (t : R) (l : C) : Prop := derivable_pt_lim (fun u => Re (f u)) t (Re l) /\ derivable_pt_lim (fun u => Im (f u)) t (Im l).
Lemma der_ext : forall (f g : R -> R) t l l', (forall u, f u = g u) -> l = l' -> derivable_pt_lim f t l -> derivable_pt_lim g t l'.
Proof. intros f g t l l' E <- H eps He. destruct (H eps He) as (d & K). exists d. intros h H1 H2. rewrite <- !E. now apply K. Qed.
Lemma cder_const : forall c t, cder (fun _ => c) t c0.
Proof. intros; split; apply derivable_pt_lim_const. Qed.
Lemma cder_add : forall f g t l m, cder f t l -> cder g t m -> cder (fun u => (f u + g u)%C) t (l + m)%C.
Proof. intros f g t l m (A & B) (A' & B'). split; cbn; now apply derivable_pt_lim_plus. Qed.
Lemma cder_sub : forall f g t l m, cder f t l -> cder g t m -> cder (fun u => (f u - g u)%C) t (l - m)%C.
Proof. intros f g t l m (A & B) (A' & B'). split; cbn; now apply derivable_pt_lim_minus. Qed.
Lemma cder_mul : forall f g t l m, cder f t l -> cder g t m -> cder (fun u => (f u * g u)%C) t (l * g t + f t * m)%C.
Proof.
  intros f g t l m (A & B) (A' & B'). split; cbn.
  - refine (der_ext _ _ t _ _ _ _ (derivable_pt_lim_minus _ _ t _ _ (derivable_pt_lim_mult _ _ t _ _ A A') (derivable_pt_lim_mult _ _ t _ _ B B'))); [reflexivity|ring].
  - refine (der_ext _ _ t _ _ _ _ (derivable_pt_lim_plus _ _ t _ _ (derivable_pt_lim_mult _ _ t _ _ A B') (derivable_pt_lim_mult _ _ t _ _ B A'))); [reflexivity|ring].
Qed.
Lemma cder_eq : forall f t l m, l = m -> cder f t l -> cder f t m. Proof. now intros f t l m <-. Qed.
Lemma der_aff : forall x t, derivable_pt_lim (fun u => x + u) t 1.
Proof. intros x t. refine (der_ext _ _ t _ _ _ _ (derivable_pt_lim_plus _ _ t _ _ (derivable_pt_lim_const x t) (derivable_pt_lim_id t))); [reflexivity|ring]. Qed.
Lemma der_n2 : forall x y t, derivable_pt_lim (fun u => (x + u) * (x + u) + y * y) t (2 * (x + t)).
Proof. intros x y t. refine (der_ext _ _ t _ _ _ _ (derivable_pt_lim_plus _ _ t _ _ (derivable_pt_lim_mult _ _ t _ _ (der_aff x t) (der_aff x t)) (derivable_pt_lim_const (y * y) t))); [reflexivity|ring]. Qed.
Lemma cder_inv : forall W t, 0 < Re W + t -> cder (fun u => (/ (W + ofR u))%C) t (- (/ (W + ofR t)) ^ 2)%C.
Proof.
  intros W t H. set (x := Re W) in *. set (y := Im W). assert (P : 0 < (x + t) * (x + t) + y * y) by nra.
  assert (EN : forall u, norm2 (W + ofR u)%C = (x + u) * (x + u) + y * y) by (intros u; unfold norm2; cbn; fold x y; ring).
  split; cbn [Re Im cinv copp cpow cmul c1].
  - refine (der_ext _ _ t _ _ _ _ (derivable_pt_lim_div _ _ t _ _ (der_aff x t) (der_n2 x y t) _)).
    + intros u. rewrite EN. unfold div_fct. reflexivity.
    + rewrite EN. cbn. fold x y. unfold Rsqr. replace (y + 0) with y by ring. clear - P. clearbody x y. set (n := (x + t) * (x + t) + y * y) in *. assert (En : n = (x + t) * (x + t) + y * y) by reflexivity. clearbody n. field_simplify_eq; [rewrite En; ring|lra].
    + lra.
  - refine (der_ext _ _ t _ _ _ _ (derivable_pt_lim_div _ _ t _ _ (derivable_pt_lim_const (- y) t) (der_n2 x y t) _)).
    + intros u. rewrite EN. unfold div_fct, fct_cte. cbn. fold y. now replace (y + 0) with y by ring.
    + rewrite EN. cbn. fold x y. unfold Rsqr, fct_cte. replace (y + 0) with y by ring. clear - P. clearbody x y. set (n := (x + t) * (x + t) + y * y) in *. assert (En : n = (x + t) * (x + t) + y * y) by reflexivity. clearbody n. field_simplify_eq; [first [rewrite En; ring|ring]|lra].
    + lra.
Qed.
Lemma cder_log : forall W t, 0 < Re W + t -> cder (fun u => clog (W + ofR u)%C) t (/ (W + ofR t))%C.
Proof.
  intros W t H. set (x := Re W) in *. set (y := Im W). assert (P : 0 < (x + t) * (x + t) + y * y) by nra.
  assert (EN : forall u, norm2 (W + ofR u)%C = (x + u) * (x + u) + y * y) by (intros u; unfold norm2; cbn; fold x y; ring).
  split; cbn [Re Im cinv clog].
  - rewrite EN. refine (der_ext _ _ t _ _ _ _ (derivable_pt_lim_mult _ _ t _ _ (derivable_pt_lim_const (/ 2) t) (derivable_pt_lim_comp _ ln t _ _ (der_n2 x y t) (derivable_pt_lim_ln _ P)))).
    + intros u. unfold mult_fct, fct_cte, comp. cbn. fold x y. now replace (y + 0) with y by ring.
    + unfold fct_cte. cbn. fold x. field. lra.
  - rewrite EN. refine (der_ext _ _ t _ _ _ _ (derivable_pt_lim_comp _ atan t _ _ (derivable_pt_lim_div _ _ t _ _ (derivable_pt_lim_const y t) (der_aff x t) _) (derivable_pt_lim_atan _))).
    + intros u. unfold comp, div_fct, fct_cte. cbn. fold x y. now replace (y + 0) with y by ring.
    + unfold div_fct, fct_cte. cbn. fold x y. unfold Rsqr. clear - P H. clearbody x y. field. replace ((x + t) * (x + t) + (y + 0) * (y + 0)) with ((x + t) * (x + t) + y * y) by ring. split; nra.
    + lra.
Qed.
(** ** Polynomials with real coefficients *)
Definition evr (p : list R) (a : C) : C := fold_right (fun c s => (ofR c + a * s)%C) c0 p.
Fixpoint devr (p : list R) (a : C) : C := match p with [] => c0 | c :: q => (evr q a + a * devr q a)%C end.
Lemma cder_evr : forall p f t l, cder f t l -> cder (fun u => evr p (f u)) t (l * devr p (f t))%C.
Proof.
  intros p f t l H. induction p as [|c p IH]; cbn [evr fold_right devr].
  - apply cder_eq with c0; [ring|apply cder_const].
  - apply cder_eq with (c0 + (l * evr p (f t) + f t * (l * devr p (f t))))%C; [ring|]. apply cder_add; [apply cder_const|]. apply cder_mul; assumption.
Qed.
Lemma evr_bound : forall p a, cmod a <= 1 -> cmod (evr p a) <= fold_right (fun c s => Rabs c + s) 0 p.
Proof.
  intros p a H. induction p as [|c p IH]; cbn [evr fold_right]; [rewrite cmod_0; lra|]. fold (evr p a). eapply Rle_trans; [apply cmod_triang|]. rewrite cmod_ofR, cmod_mul. assert (A := cmod_nonneg a). assert (D := cmod_nonneg (evr p a)). nra.
Qed.
(** ** A function with a small derivative that vanishes at infinity is small *)
Lemma der_ipow : forall x N t, 0 < x + t -> derivable_pt_lim (fun u => / (x + u) ^ N) t (- INR N * / (x + t) ^ S N).
Proof.
  intros x N t H. assert (Q : (x + t) ^ N <> 0) by (apply pow_nonzero; lra).
  refine (der_ext _ _ t _ _ _ _ (derivable_pt_lim_div _ _ t _ _ (derivable_pt_lim_const 1 t) (derivable_pt_lim_comp _ _ t _ _ (der_aff x t) (derivable_pt_lim_pow (x + t) N)) _)).
  - intros u. unfold div_fct, fct_cte, comp, Rdiv. ring.
  - unfold fct_cte, comp, Rsqr. destruct N as [|N]; [cbn; field; repeat split; lra|]. cbn [pred]. unfold Rsqr. assert (Q1 : (x + t) ^ N <> 0) by (apply pow_nonzero; lra). cbn [pow]. field. repeat split; lra.
  - exact Q.
Qed.
Lemma mean : forall (f f' : R -> R) x c N, 0 < x -> 0 <= c -> (0 < N)%nat -> (forall t, 0 <= t -> derivable_pt_lim f t (f' t)) -> (forall t, 0 <= t -> f' t <= c * / (x + t) ^ S N) ->
  (forall eps, 0 < eps -> exists T, 0 < T /\ f T > - eps) -> - (c / INR N * / x ^ N) <= f 0.
Proof.
  intros f f' x c N Hx Hc HN HD HB HL. assert (PN : 0 < INR N) by now apply lt_0_INR. apply Rnot_lt_le. intros LT.
  set (e := - (c / INR N * / x ^ N) - f 0) in *. assert (Pe : 0 < e) by (unfold e; lra). destruct (HL e Pe) as (T & HT & FT).
  set (h := fun u => f u + c / INR N * / (x + u) ^ N).
  assert (DH : forall t, 0 <= t <= T -> derivable_pt_lim h t (f' t - c * / (x + t) ^ S N)).
  { intros t Ht. refine (der_ext _ _ t _ _ _ _ (derivable_pt_lim_plus _ _ t _ _ (HD t (proj1 Ht)) (derivable_pt_lim_mult _ _ t _ _ (derivable_pt_lim_const (c / INR N) t) (der_ipow x N t ltac:(lra))))); [reflexivity|].
    unfold fct_cte. cbn [pow]. field. repeat split; first [apply pow_nonzero; lra|lra]. }
  destruct (MVT_cor2 h _ 0 T HT DH) as (u & EU & HU). assert (B := HB u ltac:(lra)). unfold h in EU. rewrite Rplus_0_r in EU.
  assert (PT : 0 < / (x + T) ^ N) by (apply Rinv_0_lt_compat, pow_lt; lra). assert (CN : 0 <= c / INR N) by (apply Rmult_le_pos; [exact Hc|left; now apply Rinv_0_lt_compat]).
  unfold e in *. nra.
Qed.
(** ** The asymptotic series *)
Fixpoint zabsb (b : Z) (p : list Z) : Z := match p with [] => 0%Z | c :: p' => (Z.abs c * b ^ Z.of_nat (S (length p')) + zabsb b p')%Z end.
Lemma absev_b : forall b p, (0 < b)%Z -> IZR b ^ length p * absev p (/ IZR b) = IZR (zabsb b p).
Proof.
  intros b p Hb. assert (P : 0 < IZR b) by now apply IZR_lt. induction p as [|c p IH]; [cbn; lra|]. cbn [zabsb length absev fold_right]. fold (absev p (/ IZR b)). rewrite plus_IZR, mult_IZR, <- IH, abs_IZR, <- pow_IZR. cbn [pow]. field. lra.
Qed.
Lemma absev_b_le : forall b p B, (0 < b)%Z -> Z.leb (zabsb b p) (B * b ^ Z.of_nat (length p)) = true -> absev p (/ IZR b) <= IZR B.
Proof.
  intros b p B Hb H. assert (Q : 0 < IZR b) by now apply IZR_lt. apply Z.leb_le, IZR_le in H. rewrite mult_IZR, <- pow_IZR, <- absev_b in H by exact Hb. assert (P : 0 < IZR b ^ length p) by (apply pow_lt; lra). nra.
Qed.
Section Series.
(** [l]: the expansion of the trigamma function times 60060, [p]: the expansion of the digamma function without the logarithm *)
Variables (l q : list Z) (m N : nat) (b B : Z) (p : list R).
Hypothesis Hb : (1 < b)%Z.
Hypothesis HB0 : (0 <= B)%Z.
Hypothesis Hlen : length l = S m.
Hypothesis Hid : padd (pmul (padd l [0; 0; -60060]%Z) (ppow [1; 1]%Z m)) (pscale (- 1) (phom l)) = repeat 0%Z (S (S (S N))) ++ q.
Hypothesis HB : Z.leb (zabsb b q) (B * b ^ Z.of_nat (length q)) = true.
Hypothesis HN : (0 < N)%nat.
Hypothesis Hp0 : hd 1 p = 0.
Hypothesis Hp : forall a, (a - a ^ 2 * devr p a = ofR (/ 60060) * ev l a)%C.
Definition gl (a : C) : C := (ofR (/ 60060) * ev l a)%C.
Definition G (W : C) : C := (clog W + evr p (/ W))%C.
Lemma bpos : 1 < IZR b. Proof. now apply IZR_lt. Qed.
Lemma step_bound : forall W, IZR b <= Re W -> cmod (gl (/ W) - gl (/ (W + c1)) - (/ W) ^ 2)%C <= IZR B / 60060 * / (Re W) ^ (S (S (S N))).
Proof.
  intros W HW. assert (Bp := bpos). set (a := (/ W)%C). set (d := (/ (W + c1))%C). assert (NW : W <> c0) by (intros ->; cbn in HW; lra).
  assert (N1 : (W + c1)%C <> c0) by (intros E; assert (Q := f_equal Re E); cbn in Q; lra).
  assert (Hab : (d * (c1 + a) = a)%C). { unfold a, d. field. split; assumption. }
  assert (Nl : l <> []) by (intros E; rewrite E in Hlen; cbn in Hlen; lia).
  assert (H1 := ev_hom l a d Hab Nl). rewrite Hlen in H1. cbn [pred] in H1.
  assert (I := f_equal (fun p => ev p a) Hid). cbv beta in I. rewrite ev_add, ev_mul, ev_add, ev_pow, ev_scale, H1, ev_shift in I.
  assert (E1 : ev [1; 1]%Z a = (c1 + a)%C) by (apply C_eq; cbn; ring). rewrite E1 in I.
  set (la := ev l a) in *. set (lb := ev l d) in *. set (w := ((c1 + a) ^ m)%C) in *.
  assert (E2 : ev [0; 0; -60060]%Z a = (- (ofR 60060 * a ^ 2))%C) by (apply C_eq; cbn; ring). rewrite E2 in I.
  change (ofR (IZR (- 1))) with (ofR (- (1))) in I. rewrite ofR_opp in I. change (ofR 1) with c1 in I.
  assert (D : ((la - lb - ofR 60060 * a ^ 2) * w = a ^ S (S (S N)) * ev q a)%C) by (rewrite <- I; ring).
  assert (Pw : 1 <= cmod w). { unfold w. rewrite cmod_pow. apply pow_R1_Rle. apply mod_1a. lra. }
  assert (Ea : cmod a <= / Re W) by (apply modinv_le; lra).
  assert (Eb : cmod a <= / IZR b) by (eapply Rle_trans; [exact Ea|apply Rinv_le_contravar; lra]).
  assert (Q1 : cmod (ev q a) <= IZR B) by (eapply Rle_trans; [apply ev_bound, Eb|apply absev_b_le; [lia|exact HB]]).
  unfold gl. fold la lb.
  assert (U : (ofR (/ 60060) * ofR 60060 = c1)%C) by (rewrite <- ofR_mul; apply C_eq; cbn; [field|ring]).
  set (z := (la - lb - ofR 60060 * a ^ 2)%C) in *.
  replace (ofR (/ 60060) * la - ofR (/ 60060) * lb - a ^ 2)%C with (ofR (/ 60060) * z)%C
    by (unfold z; transitivity (ofR (/ 60060) * la - ofR (/ 60060) * lb - ofR (/ 60060) * ofR 60060 * a ^ 2)%C; [ring|rewrite U; ring]).
  rewrite cmod_mul, cmod_ofR, Rabs_right by lra. rewrite <- pow_inv.
  assert (M := f_equal cmod D). rewrite !cmod_mul, cmod_pow in M.
  assert (Zn := cmod_nonneg z). assert (An := cmod_nonneg a).
  assert (T1 : cmod z <= cmod a ^ S (S (S N)) * cmod (ev q a)) by (rewrite <- M; nra).
  assert (T2 : cmod a ^ S (S (S N)) <= (/ Re W) ^ S (S (S N))) by (apply pow_incr; lra).
  assert (Pn : 0 <= cmod a ^ S (S (S N))) by now apply pow_le.
  assert (T3 := Rmult_le_compat _ _ _ _ Pn (cmod_nonneg (ev q a)) T2 Q1). set (u := (/ Re W) ^ S (S (S N))) in *. lra.
Qed.
Lemma cder_G : forall W t, 0 < Re W + t -> cder (fun u => G (W + ofR u)%C) t (gl (/ (W + ofR t)))%C.
Proof.
  intros W t H. unfold G, gl. rewrite <- Hp. set (a := (/ (W + ofR t))%C).
  apply cder_eq with (a + (- a ^ 2) * devr p a)%C; [ring|]. apply cder_add; [now apply cder_log|]. apply (cder_evr p (fun u => (/ (W + ofR u))%C)). now apply cder_inv.
Qed.
(** at infinity *)
Lemma atan_le : forall x, 0 <= x -> 0 <= atan x <= x.
Proof.
  intros x Hx. destruct (Req_dec x 0) as [->|NX]; [rewrite atan_0; lra|].
  assert (D : forall c, 0 <= c <= x -> derivable_pt_lim atan c (/ (1 + c ^ 2))).
  { intros c _. refine (der_ext _ _ c _ _ _ _ (derivable_pt_lim_atan c)); [reflexivity|]. unfold Rsqr. cbn [pow]. now rewrite Rmult_1_r. }
  destruct (MVT_cor2 atan _ 0 x ltac:(lra) D) as (c & E & Hc). rewrite atan_0 in E.
  assert (P : 0 < / (1 + c ^ 2) <= 1). { split; [apply Rinv_0_lt_compat; cbn; nra|]. rewrite <- Rinv_1 at 2. apply Rinv_le_contravar; [lra|cbn; nra]. } nra.
Qed.
Lemma atan_abs : forall x, Rabs (atan x) <= Rabs x.
Proof.
  intros x. destruct (Rle_lt_dec 0 x) as [H|H].
  - assert (Q := atan_le x H). rewrite !Rabs_right; lra.
  - assert (Q := atan_le (- x) ltac:(lra)). rewrite atan_opp in Q. rewrite (Rabs_left x) by lra. apply Rabs_le. lra.
Qed.
Lemma G_far : forall U, 0 <= Re U -> exists K, 0 <= K /\ forall t, 1 <= t -> cmod (G (U + ofR t) - ofR (ln t))%C <= K / t.
Proof.
  intros U HU. set (x := Re U) in *. set (y := Im U). set (pb := fold_right (fun c s => Rabs c + s) 0 (tl p)).
  assert (Ppb : 0 <= pb). { unfold pb. generalize (tl p). intros r. induction r as [|c r IH]; cbn [fold_right]; [lra|]. assert (Q := Rabs_pos c). lra. }
  exists (x + x * x + y * y + Rabs y + pb). assert (Py := Rabs_pos y). split; [nra|]. intros t Ht.
  assert (Hn : 0 < / t <= 1). { split; [apply Rinv_0_lt_compat; lra|]. rewrite <- Rinv_1. apply Rinv_le_contravar; lra. }
  assert (EP : evr p (/ (U + ofR t)) = (/ (U + ofR t) * evr (tl p) (/ (U + ofR t)))%C).
  { destruct p as [|c r]; cbn in Hp0; [lra|]. subst c. cbn [tl evr fold_right]. change (ofR 0) with c0. ring. }
  assert (BP : cmod (evr p (/ (U + ofR t))) <= pb * / t).
  { rewrite EP, cmod_mul. assert (A := modinv_le (U + ofR t)%C t ltac:(lra) ltac:(cbn; fold x; lra)). assert (B1 := evr_bound (tl p) (/ (U + ofR t))%C ltac:(lra)). fold pb in B1.
    assert (A0 := cmod_nonneg (/ (U + ofR t))%C). assert (A1 := cmod_nonneg (evr (tl p) (/ (U + ofR t))%C)). nra. }
  unfold G. replace (clog (U + ofR t) + evr p (/ (U + ofR t)) - ofR (ln t))%C with (clog (U + ofR t) - ofR (ln t) + evr p (/ (U + ofR t)))%C by ring.
  eapply Rle_trans; [apply cmod_triang|]. unfold Rdiv. rewrite Rmult_plus_distr_r. apply Rplus_le_compat; [|exact BP].
  replace (clog (U + ofR t) - ofR (ln t))%C with (ofR (Re (clog (U + ofR t)) - ln t) + ci * ofR (Im (clog (U + ofR t))))%C by (apply C_eq; cbn; ring).
  eapply Rle_trans; [apply cmod_triang|]. rewrite cmod_mul, !cmod_ofR. assert (CC : cmod ci = 1) by (unfold cmod, norm2; cbn; replace (0 * 0 + 1 * 1) with 1 by ring; apply sqrt_1). rewrite CC, Rmult_1_l, Rmult_plus_distr_r. apply Rplus_le_compat.
  - cbn [clog Re cadd ofR Im]. fold x y. rewrite Rplus_0_r. set (v := (2 * x * t + x * x + y * y) * / (t * t)).
    assert (Pv : 0 <= v) by (unfold v; apply Rmult_le_pos; [nra|left; apply Rinv_0_lt_compat; nra]).
    assert (E : (x + t) * (x + t) + y * y = (t * t) * (1 + v)) by (unfold v; field; lra). rewrite E, ln_mult, ln_mult by nra.
    replace (/ 2 * (ln t + ln t + ln (1 + v)) - ln t) with (/ 2 * ln (1 + v)) by field.
    assert (L0 : 0 <= ln (1 + v)). { destruct (Req_dec v 0) as [->|NV]; [rewrite Rplus_0_r, ln_1; lra|]. rewrite <- ln_1. left. apply ln_increasing; lra. }
    assert (L1 := ln_le_x v ltac:(lra)). rewrite Rabs_right by lra.
    assert (V2 : v <= 2 * ((x + x * x + y * y) * / t)). { unfold v. rewrite Rinv_mult. set (i := / t) in *. replace ((2 * x * t + x * x + y * y) * (i * i)) with ((2 * x * (t * i) + (x * x + y * y) * i) * i) by ring. assert (TI : t * i = 1) by (unfold i; field; lra). rewrite TI. nra. }
    lra.
  - cbn [clog Re cadd ofR Im]. fold x y. rewrite Rplus_0_r. eapply Rle_trans; [apply atan_abs|]. unfold Rdiv. rewrite Rabs_mult. apply Rmult_le_compat_l; [exact Py|]. rewrite Rabs_right by (left; apply Rinv_0_lt_compat; lra). apply Rinv_le_contravar; lra.
Qed.
(** one step *)
Definition D (W : C) : C := (G (W + c1) - G W - / W)%C.
Lemma D_bound : forall W, IZR b <= Re W -> cmod (D W) <= 2 * (IZR B / 60060 / INR (S (S N))) * / (Re W) ^ (S (S N)).
Proof.
  intros W HW. assert (Bp := bpos). set (x := Re W) in *. assert (PB : 0 <= IZR B) by now apply IZR_le.
  set (f := fun u => D (W + ofR u)%C). set (f' := fun u => (gl (/ (W + ofR u + c1)) - gl (/ (W + ofR u)) + (/ (W + ofR u)) ^ 2)%C).
  assert (DF : forall t, 0 <= t -> cder f t (f' t)).
  { intros t Ht. unfold f, f', D. apply cder_eq with (gl (/ (W + c1 + ofR t)) - gl (/ (W + ofR t)) - - (/ (W + ofR t)) ^ 2)%C; [replace (W + c1 + ofR t)%C with (W + ofR t + c1)%C by ring; ring|].
    apply cder_sub; [apply cder_sub|].
    - assert (Q := cder_G (W + c1)%C t ltac:(cbn; fold x; lra)). destruct Q as (Q1 & Q2). split; [refine (der_ext _ _ t _ _ _ eq_refl Q1)|refine (der_ext _ _ t _ _ _ eq_refl Q2)]; intros u; cbv beta; do 2 f_equal; ring.
    - apply cder_G. fold x. lra.
    - apply cder_inv. fold x. lra. }
  assert (BF : forall t, 0 <= t -> cmod (f' t) <= IZR B / 60060 * / (x + t) ^ S (S (S N))).
  { intros t Ht. assert (Q := step_bound (W + ofR t)%C ltac:(cbn; fold x; lra)). change (Re (W + ofR t)%C) with (x + t) in Q. rewrite <- cmod_opp in Q. eapply Rle_trans; [|exact Q]. right. f_equal. unfold f'. ring. }
  assert (LF : forall eps, 0 < eps -> exists T, 0 < T /\ cmod (f T) < eps).
  { intros eps He. destruct (G_far W ltac:(fold x; lra)) as (K1 & P1 & F1). destruct (G_far (W + c1)%C ltac:(cbn; fold x; lra)) as (K2 & P2 & F2). set (T := 1 + (K1 + K2 + 1) / eps).
    assert (PT : 0 <= (K1 + K2 + 1) / eps) by (apply Rmult_le_pos; [lra|left; now apply Rinv_0_lt_compat]). assert (PT1 : 1 <= T) by (unfold T; lra). exists T. split; [lra|].
    specialize (F1 T PT1). specialize (F2 T PT1). assert (F3 := modinv_le (W + ofR T)%C T ltac:(lra) ltac:(cbn; fold x; lra)). unfold f, D.
    replace (G (W + ofR T + c1) - G (W + ofR T) - / (W + ofR T))%C with ((G (W + c1 + ofR T) - ofR (ln T)) - (G (W + ofR T) - ofR (ln T)) - / (W + ofR T))%C by (replace (W + ofR T + c1)%C with (W + c1 + ofR T)%C by ring; ring).
    eapply Rle_lt_trans; [apply cmod_sub|]. apply Rle_lt_trans with (K2 / T + K1 / T + / T); [apply Rplus_le_compat; [eapply Rle_trans; [apply cmod_sub|lra]|exact F3]|].
    replace (K2 / T + K1 / T + / T) with ((K1 + K2 + 1) * / T) by (field; lra). apply Rmult_lt_reg_r with T; [lra|]. rewrite Rmult_assoc, Rinv_l, Rmult_1_r by lra. unfold T. rewrite Rmult_plus_distr_l, Rmult_1_r. replace (eps * ((K1 + K2 + 1) / eps)) with (K1 + K2 + 1) by (field; lra). lra. }
  set (c := IZR B / 60060) in *. assert (Pc : 0 <= c) by (unfold c; lra).
  assert (F0 : f 0 = D W) by (unfold f; f_equal; apply C_eq; cbn; ring).
  assert (PN : (0 < S (S N))%nat) by lia. assert (Px : 0 < x) by lra.
  assert (R1 : - (c / INR (S (S N)) * / x ^ S (S N)) <= Re (f 0)).
  { apply (mean (fun u => Re (f u)) (fun u => Re (f' u)) x c (S (S N)) Px Pc PN); [intros t Ht; apply (DF t Ht)|intros t Ht; assert (Q := BF t Ht); assert (Q1 := cmod_Re (f' t)); assert (Q2 := Rle_abs (Re (f' t))); lra|].
    intros eps He. destruct (LF eps He) as (T & HT & LT). exists T. split; [exact HT|]. assert (Q1 := cmod_Re (f T)). apply Rabs_le_inv in Q1. lra. }
  assert (R2 : - (c / INR (S (S N)) * / x ^ S (S N)) <= - Re (f 0)).
  { apply (mean (fun u => - Re (f u)) (fun u => - Re (f' u)) x c (S (S N)) Px Pc PN); [intros t Ht; apply derivable_pt_lim_opp, (DF t Ht)|intros t Ht; assert (Q := BF t Ht); assert (Q1 := cmod_Re (f' t)); apply Rabs_le_inv in Q1; lra|].
    intros eps He. destruct (LF eps He) as (T & HT & LT). exists T. split; [exact HT|]. assert (Q1 := cmod_Re (f T)). apply Rabs_le_inv in Q1. lra. }
  assert (I1 : - (c / INR (S (S N)) * / x ^ S (S N)) <= Im (f 0)).
  { apply (mean (fun u => Im (f u)) (fun u => Im (f' u)) x c (S (S N)) Px Pc PN); [intros t Ht; apply (DF t Ht)|intros t Ht; assert (Q := BF t Ht); assert (Q1 := cmod_Im (f' t)); apply Rabs_le_inv in Q1; lra|].
    intros eps He. destruct (LF eps He) as (T & HT & LT). exists T. split; [exact HT|]. assert (Q1 := cmod_Im (f T)). apply Rabs_le_inv in Q1. lra. }
  assert (I2 : - (c / INR (S (S N)) * / x ^ S (S N)) <= - Im (f 0)).
  { apply (mean (fun u => - Im (f u)) (fun u => - Im (f' u)) x c (S (S N)) Px Pc PN); [intros t Ht; apply derivable_pt_lim_opp, (DF t Ht)|intros t Ht; assert (Q := BF t Ht); assert (Q1 := cmod_Im (f' t)); apply Rabs_le_inv in Q1; lra|].
    intros eps He. destruct (LF eps He) as (T & HT & LT). exists T. split; [exact HT|]. assert (Q1 := cmod_Im (f T)). apply Rabs_le_inv in Q1. lra. }
  rewrite <- F0. set (k := c / INR (S (S N)) * / x ^ S (S N)) in *. replace (2 * (c / INR (S (S N))) * / x ^ S (S N)) with (k + k) by (unfold k; ring).
  replace (f 0) with (ofR (Re (f 0)) + ci * ofR (Im (f 0)))%C by (apply C_eq; cbn; ring). eapply Rle_trans; [apply cmod_triang|]. rewrite cmod_mul, !cmod_ofR.
  assert (CC : cmod ci = 1) by (unfold cmod, norm2; cbn; replace (0 * 0 + 1 * 1) with 1 by ring; apply sqrt_1). rewrite CC, Rmult_1_l. apply Rplus_le_compat; apply Rabs_le; lra.
Qed.
(** summed *)
Lemma D_sum : forall V M, IZR b <= Re V -> cmod (G (V + ofR (INR M)) - series V 0 M - G V)%C <= 2 * (IZR B / 60060 / INR (S (S N))) * rsum_ (fun i => / (Re V + INR i) ^ (S (S N))) M.
Proof.
  intros V M HV. induction M as [|M IH].
  - cbn [series rsum_ INR]. replace (V + ofR 0)%C with V by (apply C_eq; cbn; ring). replace (G V - c0 - G V)%C with c0 by ring. rewrite cmod_0. lra.
  - cbn [series rsum_]. rewrite INR_ofR. set (W := (V + ofR (INR M))%C) in *. assert (HW : Re W = Re V + INR M) by reflexivity. assert (P := pos_INR M).
    replace (V + (ofR (INR M) + c1))%C with (W + c1)%C by (unfold W; ring).
    assert (Q := D_bound W ltac:(lra)). rewrite HW in Q. unfold D in Q.
    replace (G (W + c1) - (series V 0 M + / W ^ 1) - G V)%C with ((G (W + c1) - G W - / W) + (G W - series V 0 M - G V))%C by (cbn [cpow]; replace (W * c1)%C with W by ring; ring).
    eapply Rle_trans; [apply cmod_triang|]. lra.
Qed.
(** the series is the digamma function *)
Lemma series_close : forall U n0 L, 0 <= Re U -> IZR b <= Re (U + ofR (INR n0))%C -> is_digamma U L ->
  cmod (G (U + ofR (INR n0)) - series U 0 n0 - L)%C <= 2 * (IZR B / 60060 / INR (S (S N))) * (/ INR (S N) * / (IZR b - 1) ^ (S N)).
Proof.
  intros U n0 L HU HV HL. assert (Bp := bpos). set (V := (U + ofR (INR n0))%C) in *. set (bd := 2 * (IZR B / 60060 / INR (S (S N))) * (/ INR (S N) * / (IZR b - 1) ^ (S N))). apply Rnot_lt_le. intros LT.
  match type of LT with _ < ?z => set (e := (z - bd) / 3) end. assert (Pe : 0 < e) by (unfold e; lra).
  destruct (HL e Pe) as (n1 & K1). destruct (G_far U HU) as (K & PK & FK). destruct (INR_unbounded (K / e)) as (m0 & Hm).
  set (M := (m0 + n1 + 1)%nat). specialize (K1 (n0 + M)%nat ltac:(unfold M; lia)). set (t := INR (n0 + M)).
  assert (Ht : 1 <= t) by (unfold t; change 1 with (INR 1); apply le_INR; unfold M; lia). specialize (FK t Ht).
  assert (Hmt : INR m0 <= t) by (unfold t; apply le_INR; unfold M; lia).
  assert (FKe : K / t <= e). { apply Rmult_le_reg_r with t; [lra|]. replace (K / t * t) with K by (field; lra). assert (A : K = e * (K / e)) by (field; lra). assert (e * (K / e) <= e * t) by (apply Rmult_le_compat_l; lra). lra. }
  assert (S := D_sum V M HV). assert (TL := telescope_le (Datatypes.S N) (Re V) M ltac:(lia) ltac:(lra)).
  assert (TL2 : / INR (Datatypes.S N) * / (Re V - 1) ^ Datatypes.S N <= / INR (Datatypes.S N) * / (IZR b - 1) ^ Datatypes.S N).
  { apply Rmult_le_compat_l; [left; apply Rinv_0_lt_compat, lt_0_INR; lia|]. apply Rinv_le_contravar; [apply pow_lt; lra|apply pow_incr; lra]. }
  assert (PB : 0 <= IZR B) by now apply IZR_le.
  assert (PC : 0 <= 2 * (IZR B / 60060 / INR (Datatypes.S (Datatypes.S N)))). { apply Rmult_le_pos; [lra|]. apply Rmult_le_pos; [lra|]. left. apply Rinv_0_lt_compat, lt_0_INR. lia. }
  assert (SB : cmod (G (V + ofR (INR M)) - series V 0 M - G V)%C <= bd).
  { eapply Rle_trans; [exact S|]. unfold bd. apply Rmult_le_compat_l; [exact PC|]. eapply Rle_trans; [exact TL|exact TL2]. }
  rewrite series_split in K1. fold V t in K1. replace (V + ofR (INR M))%C with (U + ofR t)%C in SB by (unfold V, t; rewrite plus_INR, ofR_add; ring).
  set (gV := G V) in *. set (gM := G (U + ofR t)%C) in *. set (S0 := series U 0 n0) in *. set (S1 := series V 0 M) in *. set (lt := ofR (ln t)) in *.
  assert (BIG : cmod (gV - S0 - L)%C <= cmod (gM - S1 - gV)%C + cmod (gM - lt)%C + cmod (lt - (S0 + S1) - L)%C).
  { rewrite <- (cmod_opp (gM - S1 - gV)%C). replace (gV - S0 - L)%C with (- (gM - S1 - gV) + (gM - lt) + (lt - (S0 + S1) - L))%C by ring.
    eapply Rle_trans; [apply cmod_triang|]. apply Rplus_le_compat_r. apply cmod_triang. }
  unfold e in *. lra.
Qed.
End Series.
(** ** The two truncations in use *)
Fixpoint dl (k : nat) (p : list R) : list R := match p with [] => [] | c :: q => INR k * c :: dl (S k) q end.
Lemma evr_dl : forall q k a, evr (dl (S k) q) a = (evr (dl k q) a + evr q a)%C.
Proof.
  induction q as [|c q IH]; intros k a; [cbn; apply C_eq; cbn; ring|]. cbn [dl]. change (ofR (INR (S k) * c) + a * evr (dl (S (S k)) q) a = ofR (INR k * c) + a * evr (dl (S k) q) a + (ofR c + a * evr q a))%C.
  rewrite IH, S_INR, Rmult_plus_distr_r, ofR_add, Rmult_1_l. ring.
Qed.
Lemma devr_dl : forall p a, devr p a = evr (dl 1 (tl p)) a.
Proof.
  induction p as [|c p IH]; intros a; [reflexivity|]. cbn [devr tl]. rewrite IH. destruct p as [|d p]; [cbn; apply C_eq; cbn; ring|]. cbn [tl dl].
  change (ofR d + a * evr p a + a * evr (dl 1 p) a = ofR (INR 1 * d) + a * evr (dl 2 p) a)%C. rewrite (evr_dl p 1). replace (INR 1 * d) with d by (cbn; ring). ring.
Qed.
Lemma evr_opp : forall p a, evr (map Ropp p) a = (- evr p a)%C.
Proof. intros p a. induction p as [|c p IH]; [apply C_eq; cbn; ring|]. change (ofR (- c) + a * evr (map Ropp p) a = - (ofR c + a * evr p a))%C. rewrite IH, ofR_opp. ring. Qed.
Lemma ev_evr : forall s l a, (ofR s * ev l a)%C = evr (map (fun z => s * IZR z) l) a.
Proof. intros s l a. induction l as [|c l IH]; [apply C_eq; cbn; ring|]. cbn [map]. change (ofR s * (ofR (IZR c) + a * ev l a) = ofR (s * IZR c) + a * evr (map (fun z => (s * IZR z)%R) l) a)%C. rewrite <- IH, ofR_mul. ring. Qed.
Lemma prim_ok : forall p l, map (fun z => / 60060 * IZR z) l = 0 :: 1 :: map Ropp (dl 1 (tl p)) -> forall a, (a - a ^ 2 * devr p a = ofR (/ 60060) * ev l a)%C.
Proof.
  intros p l H a. rewrite ev_evr, H, devr_dl. change (evr (0 :: 1 :: map Ropp (dl 1 (tl p))) a) with (ofR 0 + a * (ofR 1 + a * evr (map Ropp (dl 1 (tl p))) a))%C. rewrite evr_opp.
  change (ofR 0) with c0. change (ofR 1) with c1. ring.
Qed.
Definition l6 : list Z := [0; 60060; 30030; 10010; 0; -2002; 0; 1430; 0; -2002; 0; 4550; 0; -15202]%Z.
Definition p6 : list R := [0; - / 2; - / 12; 0; / 120; 0; - / 252; 0; / 240; 0; - / 132; 0; 691 / 32760].
Definition l7 : list Z := [0; 60060; 30030; 10010; 0; -2002; 0; 1430; 0; -2002; 0; 4550; 0; -15202; 0; 70070]%Z.
Definition p7 : list R := [0; - / 2; - / 12; 0; / 120; 0; - / 252; 0; / 240; 0; - / 132; 0; 691 / 32760; 0; - / 12].
Ltac lists := repeat match goal with |- @eq (list R) (_ :: _) (_ :: _) => apply (f_equal2 (@cons R)); [lra|] end; try reflexivity.
Lemma p6_ok : forall a, (a - a ^ 2 * devr p6 a = ofR (/ 60060) * ev l6 a)%C.
Proof. apply prim_ok. unfold p6, l6. cbn [map tl dl INR]. lists. Qed.
Lemma p7_ok : forall a, (a - a ^ 2 * devr p7 a = ofR (/ 60060) * ev l7 a)%C.
Proof. apply prim_ok. unfold p7, l7. cbn [map tl dl INR]. lists. Qed.
Definition rest (l : list Z) (m n : nat) : list Z := skipn n (padd (pmul (padd l [0; 0; -60060]%Z) (ppow [1; 1]%Z m)) (pscale (- 1) (phom l))).
Lemma close6 : forall U n0 L, 0 <= Re U -> 15 <= Re (U + ofR (INR n0))%C -> is_digamma U L -> cmod (G p6 (U + ofR (INR n0)) - series U 0 n0 - L)%C <= 21 / 10 ^ 18.
Proof.
  intros U n0 L HU HV HL. eapply Rle_trans.
  - apply (series_close l6 (rest l6 13 16) 13 13 15 1466167 p6); try lia; [reflexivity|vm_compute; reflexivity|vm_compute; reflexivity|reflexivity|exact p6_ok|exact HU|exact HV|exact HL].
  - replace (INR 15) with 15 by (cbn; ring). replace (INR 14) with 14 by (cbn; ring). lra.
Qed.
Lemma close7 : forall U n0 L, 0 <= Re U -> 8 <= Re (U + ofR (INR n0))%C -> is_digamma U L -> cmod (G p7 (U + ofR (INR n0)) - series U 0 n0 - L)%C <= 57 / 10 ^ 15.
Proof.
  intros U n0 L HU HV HL. eapply Rle_trans.
  - apply (series_close l7 (rest l7 15 18) 15 15 8 15372515 p7); try lia; [reflexivity|vm_compute; reflexivity|vm_compute; reflexivity|reflexivity|exact p7_ok|exact HU|exact HV|exact HL].
  - replace (INR 17) with 17 by (cbn; ring). replace (INR 16) with 16 by (cbn; ring). lra.
Qed.
(** ** The code *)
Lemma minus_terms_spec : forall n z, minus_terms n z c0 = (- series z 0 n)%C.
Proof. intros n z. induction n as [|n IH]; cbn [minus_terms series]; [ring|]. rewrite IH. cbn [cpow]. replace ((z + ofR (INR n)) * c1)%C with (z + ofR (INR n))%C by ring. unfold cdiv. ring. Qed.
(** the recurrence with real numbers evaluates the polynomial *)
Fixpoint dsum (j : nat) (t : C) : C := match j with O => c0 | S k => (dsum k t + ofR (df k) * t ^ k)%C end.
Lemma recur_spec : forall j t a b, let ab := recur j (Re t + Re t) (Re t ^ 2 + Im t ^ 2) a b in (t * ofR (fst ab) + ofR (snd ab))%C = ((t * ofR a + ofR b) * t ^ j + dsum j t)%C.
Proof.
  induction j as [|k IH]; intros t a b; cbv zeta; cbn [recur dsum]; [cbn [fst snd cpow]; ring|].
  rewrite IH. assert (Q : (t * t = ofR (Re t + Re t) * t - ofR (Re t ^ 2 + Im t ^ 2))%C) by (apply C_eq; cbn; ring).
  rewrite ofR_add, ofR_mul, ofR_sub, ofR_mul. cbn [cpow].
  transitivity ((t * ofR b + ofR a * (ofR (Re t + Re t) * t - ofR (Re t ^ 2 + Im t ^ 2)) + ofR (df k)) * t ^ k + dsum k t)%C; [ring|]. rewrite <- Q. ring.
Qed.
Lemma small_sum : forall (ds : list R) a e, cmod a <= 1 -> (forall d, In d ds -> Rabs d <= e) -> cmod (evr ds a) <= INR (length ds) * e.
Proof.
  intros ds a e Ha. induction ds as [|d ds IH]; intros H; [cbn; rewrite cmod_0; lra|]. cbn [length]. rewrite S_INR. change (evr (d :: ds) a) with (ofR d + a * evr ds a)%C.
  eapply Rle_trans; [apply cmod_triang|]. rewrite cmod_ofR, cmod_mul. assert (H0 := H d (or_introl eq_refl)). specialize (IH (fun x Hx => H x (or_intror Hx))).
  assert (A := cmod_nonneg a). assert (A1 := cmod_nonneg (evr ds a)). nra.
Qed.
Lemma digamma_form : forall z, 0 < Re z -> exists n0, 8 <= Re (z + ofR (INR n0))%C /\ cmod (digamma z - (G p7 (z + ofR (INR n0)) - series z 0 n0))%C <= 1 / 10 ^ 48.
Proof.
  intros z Hz. set (n0 := if Rlt_dec (Re z) 8 then (8 - int_ (Re z))%nat else 0%nat). exists n0.
  assert (HV : 8 <= Re (z + ofR (INR n0))%C).
  { cbn. unfold n0. destruct (Rlt_dec (Re z) 8) as [L|L]; [|cbn [INR]; lra]. destruct (int_spec (Re z)) as (I1 & I2); [lra|].
    assert (I3 : (int_ (Re z) <= 8)%nat). { apply INR_le. replace (INR 8) with 8 by (cbn; ring). lra. } rewrite minus_INR by exact I3. replace (INR 8) with 8 by (cbn; ring). lra. }
  split; [exact HV|]. unfold digamma. destruct (Rle_dec (Re z) 0) as [L|_]; [lra|]. cbv zeta. fold n0. rewrite minus_terms_spec. set (V := (z + ofR (INR n0))%C) in *.
  assert (NV : V <> c0) by (intros E; rewrite E in HV; cbn in HV; lra). set (a := (/ V)%C).
  assert (Ea : cmod a <= 1) by (eapply Rle_trans; [apply (modinv_le V 8); lra|lra]).
  set (t := (c1 / V / V)%C). assert (Et : t = (a ^ 2)%C) by (unfold t, a; field; exact NV).
  assert (Q := recur_spec 6 t (df 7) (df 6)). cbv zeta in Q. set (ab := recur 6 _ _ _ _) in *.
  replace (- series z 0 n0 - c1 / V / ofR 2 + t * ofR (fst ab) + ofR (snd ab) + clog V)%C with (- series z 0 n0 - c1 / V / ofR 2 + (t * ofR (fst ab) + ofR (snd ab)) + clog V)%C by ring.
  rewrite Q. unfold G. fold a.
  assert (E2 : (c1 / V / ofR 2 = ofR (/ 2) * a)%C). { unfold a. rewrite ofR_inv by lra. field. split; [exact NV|apply ofR_neq; lra]. } rewrite E2.
  set (ds := [df 1 + / 12; 0; df 2 - / 120; 0; df 3 + / 252; 0; df 4 - / 240; 0; df 5 + / 132; 0; df 6 - 691 / 32760; 0; df 7 + / 12]).
  assert (ES : (- series z 0 n0 - ofR (/ 2) * a + ((t * ofR (df 7) + ofR (df 6)) * t ^ 6 + dsum 6 t) + clog V - (clog V + evr p7 a - series z 0 n0) = a ^ 2 * evr ds a)%C).
  { unfold ds, p7. cbn [evr fold_right dsum]. rewrite Et, !ofR_add, !ofR_sub, !ofR_opp. change (df 0) with 0. change (ofR 0) with c0. ring. }
  rewrite ES, cmod_mul. assert (B2 : cmod (evr ds a) <= INR 13 * (1 / 10 ^ 50)).
  { apply (small_sum ds a); [exact Ea|]. intros d Hd. unfold ds in Hd. cbn [In] in Hd. repeat (destruct Hd as [<-|Hd]; [unfold df, dfac; cbn [nth]; apply Rabs_le; lra|]). destruct Hd. }
  replace (INR 13) with 13 in B2 by (cbn; ring). assert (A1 := cmod_nonneg a). assert (A2 := cmod_nonneg (evr ds a)). assert (A3 : cmod (a ^ 2)%C <= 1) by (rewrite cmod_pow; cbn [pow]; nra). assert (A4 := cmod_nonneg (a ^ 2)%C). nra.
Qed.
Lemma polygamma0_form : forall U, 0 <= Re U -> U <> c0 -> exists n0, 15 <= Re (U + ofR (INR n0))%C /\ cmod (polygamma clog U 0 - (G p6 (U + ofR (INR n0)) - series U 0 n0))%C <= 1 / 10 ^ 18.
Proof.
  intros U HU NU. set (A := Rabs (Re U)). assert (EA : A = Re U) by (unfold A; apply Rabs_right; lra).
  set (n0 := if Rlt_dec A 15 then (16 - int_ A)%nat else 0%nat). exists n0.
  assert (VH : (if Rlt_dec A 15 then let r := terms (15 - int_ A) 1 U (c1 / U ^ 1) in (fst r + c1, snd r) else (U, c0))%C = ((U + ofR (INR n0))%C, series U 0 n0)).
  { unfold n0. destruct (Rlt_dec A 15) as [L|L].
    - destruct (int_spec A) as (I1 & I2); [lra|]. assert (T := terms_spec (15 - int_ A) 0 U 0). cbn [INR series] in T.
      replace (U + ofR 0)%C with U in T by (apply C_eq; cbn; ring). replace (c0 + / U ^ 1)%C with (c1 / U ^ 1)%C in T by (unfold cdiv; ring).
      rewrite T. cbn [fst snd Nat.add]. replace (16 - int_ A)%nat with (S (15 - int_ A)) by lia. rewrite INR_ofR. f_equal; ring.
    - cbn [INR series]. f_equal. apply C_eq; cbn; ring. }
  assert (HV : 15 <= Re (U + ofR (INR n0))%C).
  { cbn. unfold n0. destruct (Rlt_dec A 15) as [L|L]; [|cbn [INR]; lra]. destruct (int_spec A) as (I1 & I2); [lra|]. rewrite minus_INR by lia. replace (INR 16) with 16 by (cbn; ring). lra. }
  split; [exact HV|]. unfold polygamma. cbn [Nat.ltb Nat.leb]. cbv zeta in VH |- *. destruct (Rlt_dec (Re U) 0) as [L|_]; [lra|]. fold A. rewrite VH. cbn [fst snd]. set (V := (U + ofR (INR n0))%C) in *.
  assert (NV : V <> c0) by (intros E; rewrite E in HV; cbn in HV; lra). set (a := (/ V)%C). assert (Ea : cmod a <= 1) by (eapply Rle_trans; [apply (modinv_le V 15); lra|lra]).
  assert (E2 : (c1 / V ^ 2 = a ^ 2)%C) by (unfold a; field; exact NV). assert (E1 : (c1 / V ^ 1 = a)%C) by (unfold a; field; exact NV). rewrite E1, E2.
  cbn [nth FCT SGN Nat.add horner]. unfold Cat. cbn [nth Ctab]. unfold G. fold a. assert (Va : (a * V = c1)%C) by (unfold a; field; exact NV).
  match goal with |- cmod (((series U 0 n0 * ofR 1 + a * (V * (?P1 + ofR 0) + ?h1)) * _ + _) - _)%C <= _ => set (P := P1); set (h := h1) end.
  assert (Eh : h = ofR (/ 2)) by (unfold h; f_equal; ring).
  replace ((series U 0 n0 * ofR 1 + a * (V * (P + ofR 0) + h)) * ofR (- (1)) + clog V - (clog V + evr p6 a - series U 0 n0))%C with (- (P + ofR (/ 2) * a + evr p6 a))%C.
  2: { change (ofR 0) with c0. rewrite ofR_opp. change (ofR 1) with c1. rewrite Eh. transitivity (- ((a * V) * P + ofR (/ 2) * a + evr p6 a))%C; [rewrite Va; ring|ring]. }
  rewrite cmod_opp.
  set (ds := [833333333333333333 / 10 ^ 19 - / 12; 0; - (833333333333333333 / 10 ^ 20) + / 120; 0; 396825396825396825 / 10 ^ 20 - / 252; 0; - (416666666666666667 / 10 ^ 20) + / 240; 0; 757575757575757576 / 10 ^ 20 - / 132; 0; - (210927960927960928 / 10 ^ 19) + 691 / 32760]).
  assert (ES : (P + ofR (/ 2) * a + evr p6 a = a ^ 2 * evr ds a)%C).
  { unfold P, ds, p6. cbn [evr fold_right]. rewrite !ofR_add, !ofR_sub, !ofR_opp. change (ofR 0) with c0. ring. }
  rewrite ES, cmod_mul. assert (B2 : cmod (evr ds a) <= INR 11 * (5 / 10 ^ 20)).
  { apply (small_sum ds a); [exact Ea|]. intros d Hd. unfold ds in Hd. cbn [In] in Hd. repeat (destruct Hd as [<-|Hd]; [apply Rabs_le; lra|]). destruct Hd. }
  replace (INR 11) with 11 in B2 by (cbn; ring). assert (A1 := cmod_nonneg a). assert (A2 := cmod_nonneg (evr ds a)). assert (A3 : cmod (a ^ 2)%C <= 1) by (rewrite cmod_pow; cbn [pow]; nra). assert (A4 := cmod_nonneg (a ^ 2)%C). nra.
Qed.
(** ** C73 *)
Theorem C73_polygamma0 : forall U, 0 <= Re U -> U <> c0 -> exists L, is_digamma U L /\ cmod (polygamma clog U 0 - L)%C <= 3 / 10 ^ 17.
Proof.
  intros U HU NU. destruct (digamma_conv U HU NU) as (L & HL). exists L. split; [exact HL|]. destruct (polygamma0_form U HU NU) as (n0 & HV & F). assert (S := close6 U n0 L HU HV HL).
  set (g := (G p6 (U + ofR (INR n0)) - series U 0 n0)%C) in *. replace (polygamma clog U 0 - L)%C with ((polygamma clog U 0 - g) + (g - L))%C by ring. eapply Rle_trans; [apply cmod_triang|]. lra.
Qed.
Theorem C73_digamma : forall z, 0 <= Re z -> z <> c0 -> exists L, is_digamma z L /\ cmod (digamma z - L)%C <= 6 / 10 ^ 14.
Proof.
  intros z Hz NZ. destruct (Rle_lt_or_eq_dec _ _ Hz) as [P|E].
  - destruct (digamma_conv z Hz NZ) as (L & HL). exists L. split; [exact HL|]. destruct (digamma_form z P) as (n0 & HV & F). assert (S := close7 z n0 L Hz HV HL).
    set (g := (G p7 (z + ofR (INR n0)) - series z 0 n0)%C) in *. replace (digamma z - L)%C with ((digamma z - g) + (g - L))%C by ring. eapply Rle_trans; [apply cmod_triang|]. lra.
  - destruct (C73_polygamma0 z Hz NZ) as (L & HL & F). exists L. split; [exact HL|]. unfold digamma. destruct (Rle_dec (Re z) 0) as [_|N]; [lra|lra].
Qed.
(** the functional equation *)
Lemma digamma_step : forall z L, 0 <= Re z -> z <> c0 -> is_digamma z L -> is_digamma (z + c1)%C (L + / z)%C.
Proof.
  intros z L Hz NZ HL eps He. destruct (HL (eps / 2) ltac:(lra)) as (n1 & K). destruct (INR_unbounded (2 / eps)) as (n2 & H2). assert (P2 : 0 < 2 / eps) by (apply Rdiv_lt_0_compat; lra).
  exists (n1 + n2 + 1)%nat. intros n Hn. specialize (K n ltac:(lia)).
  assert (ES : forall k, series (z + c1)%C 0 k = (series z 0 k - / z + / (z + ofR (INR k)))%C).
  { induction k as [|k IH]; [cbn [series INR]; replace (z + ofR 0)%C with z by (apply C_eq; cbn; ring); ring|]. cbn [series cpow]. rewrite IH, INR_ofR. replace (z + c1 + ofR (INR k))%C with (z + (ofR (INR k) + c1))%C by ring.
    replace ((z + (ofR (INR k) + c1)) * c1)%C with (z + (ofR (INR k) + c1))%C by ring. replace ((z + ofR (INR k)) * c1)%C with (z + ofR (INR k))%C by ring. ring. }
  rewrite ES. replace (ofR (ln (INR n)) - (series z 0 n - / z + / (z + ofR (INR n))) - (L + / z))%C with ((ofR (ln (INR n)) - series z 0 n - L) - / (z + ofR (INR n)))%C by ring.
  eapply Rle_lt_trans; [apply cmod_sub|]. assert (Pn : 2 / eps < INR n) by (eapply Rlt_le_trans; [exact H2|apply le_INR; lia]).
  assert (Q := modinv_le (z + ofR (INR n))%C (INR n) ltac:(lra) ltac:(cbn; lra)). assert (Q2 : / INR n < eps / 2). { replace (eps / 2) with (/ (2 / eps)) by (field; lra). apply Rinv_lt_contravar; [apply Rmult_lt_0_compat; lra|exact Pn]. } lra.
Qed.
Theorem C73_step : forall z, 0 <= Re z -> z <> c0 -> cmod (digamma (z + c1) - digamma z - / z)%C <= 12 / 10 ^ 14.
Proof.
  intros z Hz NZ. destruct (C73_digamma z Hz NZ) as (L & HL & F). assert (H1 := digamma_step z L Hz NZ HL).
  assert (N1 : (z + c1)%C <> c0) by (intros E; assert (Q := f_equal Re E); cbn in Q; lra). destruct (C73_digamma (z + c1)%C ltac:(cbn; lra) N1) as (L1 & HL1 & F1).
  rewrite (limit_unique _ _ _ HL1 H1) in F1. replace (digamma (z + c1) - digamma z - / z)%C with ((digamma (z + c1) - (L + / z)) - (digamma z - L))%C by ring. eapply Rle_trans; [apply cmod_sub|]. lra.
Qed.
(** ** The left half plane *)
Lemma half_code0 : Im (digamma (mk (- / 2) 0)) <= - (1).
Proof.
  unfold digamma. cbn [Re]. destruct (Rle_dec (- / 2) 0) as [_|N]; [|lra].
  unfold polygamma. cbn [Nat.ltb Nat.leb Re]. cbv zeta. destruct (Rlt_dec (- / 2) 0) as [_|N]; [|lra].
  assert (EA : Rabs (- / 2) = / 2) by (rewrite Rabs_left; lra). rewrite EA. destruct (Rlt_dec (/ 2) 15) as [_|N]; [|lra].
  assert (I0 : int_ (/ 2) = 0%nat).
  { destruct (int_spec (/ 2)) as (_ & I2); [lra|]. destruct (int_ (/ 2)) as [|n]; [reflexivity|]. rewrite S_INR in I2. assert (P := pos_INR n). lra. }
  rewrite I0. set (U := ofR (/ 2)). assert (EU : (- mk (- / 2) 0)%C = U) by (apply C_eq; cbn; ring). rewrite EU.
  assert (T := terms_spec 15 0 U 0). cbn [INR series] in T.
  replace (U + ofR 0)%C with U in T by (apply C_eq; cbn; ring). replace (c0 + / U ^ 1)%C with (c1 / U ^ 1)%C in T by (unfold cdiv; ring).
  change (15 - 0)%nat with 15%nat. rewrite T. cbn [fst snd]. clear T.
  assert (EV : (U + ofR (INR (0 + 15)) + c1 = ofR (33 / 2))%C) by (apply C_eq; cbn; field). rewrite EV. set (V := ofR (33 / 2)).
  assert (RV : real V) by reflexivity. assert (RU : real U) by reflexivity.
  assert (RS : real (series U 0 (S (0 + 15)))) by (apply real_series; exact RU).
  assert (RL : real (clog V)) by (unfold real, V; cbn; unfold Rdiv; rewrite Rmult_0_l; apply atan_0).
  match goal with |- Im (?h + clog V + (c1 / U + ?p * ofR PI))%C <= _ => assert (RH : real h); [|set (H0 := h) in *; set (P0 := p)] end.
  { repeat first [exact RS|exact RU|exact RV|reflexivity|apply real_inv|apply real_add|apply real_mul|apply real_div|apply real_pow|apply real_horner|apply real_series]. }
  assert (RE2 : real (c1 / U)%C) by (apply real_div; [reflexivity|exact RU]).
  assert (EI : Im (H0 + clog V + (c1 / U + P0 * ofR PI))%C = Im P0 * PI).
  { change (Im H0 + Im (clog V) + (Im (c1 / U)%C + (Re P0 * 0 + Im P0 * PI)) = Im P0 * PI). unfold real in *. rewrite RH, RE2, RL. ring. }
  rewrite EI. unfold P0, V. clear.
  assert (RX : Re (ofR (33 / 2) * ofR PI)%C = PI / 2 + 2 * INR 8 * PI) by (cbn; field). rewrite RX, sin_period, cos_period, sin_PI2, cos_PI2.
  assert (PP := PI_RGT_0). assert (P3 : 3 < PI) by (assert (Q := PI2_3_2); unfold PI2 in Q; lra).
  assert (TH := tanh_half (PI / 2 + 2 * INR 8 * PI)). set (t := tanh _) in *.
  assert (TT : / 2 <= t <= 1) by (apply TH; cbn; lra).
  match goal with |- Im ?p * _ <= _ => assert (EP : p = mk (- (t * t / (1 + t * t))) (- (t / (1 + t * t)))); [|rewrite EP] end.
  { apply C_eq; cbn; unfold norm2; cbn; field; nra. }
  cbn [Im]. assert (U1 : 2 / 5 <= t / (1 + t * t)). { apply Rmult_le_reg_r with (1 + t * t); [nra|]. replace (t / (1 + t * t) * (1 + t * t)) with t by (field; nra). nra. }
  nra.
Qed.
(** At z = -1/2 the digamma function is real, the code returns a number with imaginary part below -1. *)
Theorem C73_left_refuted : exists z, Re z < 0 /\ (forall n, (z + ofR (INR n))%C <> c0) /\ exists L, is_digamma z L /\ 1 <= cmod (digamma z - L)%C.
Proof.
  exists (mk (- / 2) 0). split; [cbn; lra|]. split.
  - intros n E. assert (Q := f_equal Re E). cbn in Q. destruct n as [|n]; [cbn in Q; lra|]. rewrite S_INR in Q. assert (P := pos_INR n). lra.
  - set (U := mk (- / 2) 0). assert (N1 : (U + c1)%C <> c0) by (intros E; assert (Q := f_equal Re E); cbn in Q; lra).
    destruct (digamma_conv (U + c1)%C ltac:(cbn; lra) N1) as (L1 & HL1). assert (NU : U <> c0) by (intros E; assert (Q := f_equal Re E); cbn in Q; lra).
    assert (ES : forall k, series (U + c1)%C 0 k = (series U 0 k - / U + / (U + ofR (INR k)))%C).
    { induction k as [|k IH]; [cbn [series INR]; replace (U + ofR 0)%C with U by (apply C_eq; cbn; ring); ring|]. cbn [series cpow]. rewrite IH, INR_ofR. replace (U + c1 + ofR (INR k))%C with (U + (ofR (INR k) + c1))%C by ring.
      replace ((U + (ofR (INR k) + c1)) * c1)%C with (U + (ofR (INR k) + c1))%C by ring. replace ((U + ofR (INR k)) * c1)%C with (U + ofR (INR k))%C by ring. ring. }
    set (L := (L1 - / U)%C). assert (HL : is_digamma U L).
    { intros eps He. destruct (HL1 (eps / 2) ltac:(lra)) as (n1 & K). destruct (INR_unbounded (1 + 2 / eps)) as (n2 & H2). assert (P2 : 0 < 2 / eps) by (apply Rdiv_lt_0_compat; lra).
      exists (n1 + n2)%nat. intros n Hn. specialize (K n ltac:(lia)). rewrite ES in K. assert (Pn : 1 + 2 / eps < INR n) by (eapply Rlt_le_trans; [exact H2|apply le_INR; lia]).
      assert (Q := modinv_le (U + ofR (INR n))%C (2 / eps) ltac:(lra) ltac:(cbn; lra)). replace (/ (2 / eps)) with (eps / 2) in Q by (field; lra).
      replace (ofR (ln (INR n)) - series U 0 n - L)%C with ((ofR (ln (INR n)) - (series U 0 n - / U + / (U + ofR (INR n))) - L1) + / (U + ofR (INR n)))%C by (unfold L; ring). eapply Rle_lt_trans; [apply cmod_triang|]. lra. }
    exists L. split; [exact HL|].
    assert (RL : Im L = 0).
    { destruct (Req_dec (Im L) 0) as [E|E]; [exact E|]. destruct (HL (Rabs (Im L)) (Rabs_pos_lt _ E)) as (n0 & K). specialize (K n0 (le_n _)).
      assert (A := cmod_Im (ofR (ln (INR n0)) - series U 0 n0 - L)%C). assert (RS : real (series U 0 n0)) by (apply real_series; reflexivity). unfold real in RS.
      change (Im (ofR (ln (INR n0)) - series U 0 n0 - L)%C) with (0 - Im (series U 0 n0) - Im L) in A. rewrite RS, Rminus_0_r, Rminus_0_l, Rabs_Ropp in A. lra. }
    assert (H := half_code0). fold U in H. eapply Rle_trans; [|apply cmod_Im]. change (Im (digamma U - L)%C) with (Im (digamma U) - Im L). rewrite RL, Rminus_0_r. rewrite Rabs_left; lra.
Qed.
(** the argument of the level integrals: 1/2 + i y; and a computed value of the recurrence, 1/z^2 = 1/100 *)
Example C73_case : exists L, is_digamma (mk (/ 2) (- 3)) L /\ cmod (digamma (mk (/ 2) (- 3)) - L)%C <= 6 / 10 ^ 14.
Proof. apply C73_digamma; [cbn; lra|]. intros E. assert (Q := f_equal Re E). cbn in Q. lra. Qed.
Example C73_case_value : Rabs (Re (digamma (ofR 10)) - (ln 10 - 50832503927324 / 10 ^ 15)) <= 1 / 10 ^ 14 /\ Im (digamma (ofR 10)) = 0.
Proof.
  unfold digamma. cbn [Re ofR]. destruct (Rle_dec 10 0) as [L|_]; [lra|]. destruct (Rlt_dec 10 8) as [L|_]; [lra|]. cbv zeta. cbn [minus_terms INR]. assert (EV : (ofR 10 + ofR 0)%C = ofR 10) by (apply C_eq; cbn; ring). rewrite EV. clear EV.
  assert (E1 : (c1 / ofR 10 = ofR (/ 10))%C) by (apply C_eq; cbn; unfold norm2; cbn; field). rewrite E1.
  assert (E2 : (ofR (/ 10) / ofR 10 = ofR (/ 100))%C) by (apply C_eq; cbn; unfold norm2; cbn; field). rewrite E2.
  assert (E3 : (ofR (/ 10) / ofR 2 = ofR (/ 20))%C) by (apply C_eq; cbn; unfold norm2; cbn; field). rewrite E3.
  cbn [Re Im ofR recur fst snd]. unfold df, dfac. cbn [nth]. cbn [clog Re Im cadd csub cmul ofR c0]. replace (10 * 10 + 0 * 0) with (10 * 10) by ring. rewrite ln_mult by lra. split.
  - apply Rabs_le. lra.
  - replace (0 / 10) with 0 by field. rewrite atan_0. ring.
Qed.
Print Assumptions C73_polygamma0.
Print Assumptions C73_digamma.
Print Assumptions C73_step.
Print Assumptions C73_left_refuted.
