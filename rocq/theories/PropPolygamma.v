(** C62: polygamma in the right half plane is the series of the polygamma functions up to 2e-17; it is wrong in the left half plane. *)
From Coq Require Import Reals List Arith ZArith Lra Lia Psatz.
From Verif Require Import CplxR Polygamma.
Import ListNotations.
Local Open Scope R_scope.
Add Ring C_ringP : C_ring (power_tac C_power [Rpow_tac]).
Add Field C_fieldP : C_field (power_tac C_power [Rpow_tac]).

(** ** Specification *)
(** the sum of the first N terms of 1/(U+n)^(K+1) *)
Fixpoint series (U : C) (K N : nat) : C := match N with O => c0 | S n => (series U K n + / (U + ofR (INR n)) ^ S K)%C end.
Definition limit (s : nat -> C) (L : C) : Prop := forall eps, 0 < eps -> exists n0, forall n, (n0 <= n)%nat -> cmod (s n - L)%C < eps.
(** psi_K(U) = (-1)^(K+1) K! sum_n 1/(U+n)^(K+1) *)
Definition is_polygamma (U : C) (K : nat) (L : C) : Prop :=
  limit (fun n => (ofR ((- 1) ^ S K * INR (fact K)) * series U K n)%C) L.

(** ** Polynomials with integer coefficients *)
Definition ev (p : list Z) (a : C) : C := fold_right (fun c s => (ofR (IZR c) + a * s)%C) c0 p.
Fixpoint padd (p q : list Z) : list Z := match p, q with [], _ => q | _, [] => p | x :: p', y :: q' => (x + y)%Z :: padd p' q' end.
Definition pscale (c : Z) (p : list Z) : list Z := map (fun x => c * x)%Z p.
Fixpoint pmul (p q : list Z) : list Z := match p with [] => [] | c :: p' => padd (pscale c q) (0%Z :: pmul p' q) end.
Fixpoint ppow (p : list Z) (n : nat) : list Z := match n with O => [1%Z] | S k => pmul p (ppow p k) end.
Lemma ev_add : forall p q a, ev (padd p q) a = (ev p a + ev q a)%C.
Proof.
  induction p as [|x p IH]; intros [|y q] a; cbn [padd ev fold_right]; try ring.
  change (ofR (IZR (x + y)) + a * ev (padd p q) a = ofR (IZR x) + a * ev p a + (ofR (IZR y) + a * ev q a))%C. rewrite IH, plus_IZR, ofR_add. ring.
Qed.
Lemma ev_scale : forall c p a, ev (pscale c p) a = (ofR (IZR c) * ev p a)%C.
Proof.
  intros c p a. induction p as [|x p IH]; cbn; [ring|]. change (ofR (IZR (c * x)) + a * ev (pscale c p) a = ofR (IZR c) * (ofR (IZR x) + a * ev p a))%C. rewrite IH, mult_IZR, ofR_mul. ring.
Qed.
Lemma ev_mul : forall p q a, ev (pmul p q) a = (ev p a * ev q a)%C.
Proof.
  intros p q a. induction p as [|x p IH]; cbn [pmul]; [cbn; ring|]. rewrite ev_add, ev_scale. change (ofR (IZR x) * ev q a + (ofR (IZR 0) + a * ev (pmul p q) a) = (ofR (IZR x) + a * ev p a) * ev q a)%C.
  rewrite IH. change (ofR (IZR 0)) with c0. ring.
Qed.
Lemma ev_pow : forall p n a, ev (ppow p n) a = (ev p a ^ n)%C.
Proof. intros p n a. induction n; cbn [ppow cpow]; [apply C_eq; cbn; ring|]. now rewrite ev_mul, IHn. Qed.
(** (1 + a)^deg p(b) for b = a / (1 + a) *)
Fixpoint phom (p : list Z) : list Z := match p with [] => [] | c :: p' => padd (pscale c (ppow [1; 1]%Z (length p'))) (0%Z :: phom p') end.
Lemma ev_hom : forall p a b, (b * (c1 + a) = a)%C -> p <> [] -> ev (phom p) a = ((c1 + a) ^ pred (length p) * ev p b)%C.
Proof.
  intros p a b H. induction p as [|x p IH]; [congruence|]. intros _. cbn [phom length pred]. rewrite ev_add, ev_scale, ev_pow.
  assert (E1 : ev [1; 1]%Z a = (c1 + a)%C) by (apply C_eq; cbn; ring). rewrite E1.
  change (ev (0%Z :: phom p) a) with (ofR (IZR 0) + a * ev (phom p) a)%C. change (ev (x :: p) b) with (ofR (IZR x) + b * ev p b)%C. change (ofR (IZR 0)) with c0.
  destruct p as [|y p]; [cbn; ring|]. rewrite IH by discriminate. cbn [length pred]. set (m := length p).
  replace ((c1 + a) ^ S m)%C with ((c1 + a) * (c1 + a) ^ m)%C by reflexivity. set (w := ((c1 + a) ^ m)%C). set (e := ev (y :: p) b).
  transitivity ((c1 + a) * w * ofR (IZR x) + b * (c1 + a) * (w * e))%C; [rewrite H; ring|ring].
Qed.
(** bounds *)
Definition absev (p : list Z) (r : R) : R := fold_right (fun c s => Rabs (IZR c) + r * s) 0 p.
Lemma absev_nonneg : forall p r, 0 <= r -> 0 <= absev p r.
Proof. intros p r H. induction p as [|c p IH]; cbn; [lra|]. fold (absev p r). assert (A := Rabs_pos (IZR c)). assert (B := Rmult_le_pos _ _ H IH). lra. Qed.
Lemma absev_mono : forall p r s, 0 <= r <= s -> absev p r <= absev p s.
Proof.
  intros p r s H. induction p as [|c p IH]; cbn; [lra|]. fold (absev p r) (absev p s). assert (A := absev_nonneg p r ltac:(lra)). assert (B := Rmult_le_compat r s _ _ (proj1 H) A (proj2 H) IH). lra.
Qed.
Lemma ev_bound : forall p a r, cmod a <= r -> cmod (ev p a) <= absev p r.
Proof.
  intros p a r H. induction p as [|c p IH]; cbn; [rewrite cmod_0; lra|]. fold (ev p a) (absev p r). eapply Rle_trans; [apply cmod_triang|]. rewrite cmod_ofR, cmod_mul.
  assert (B := Rmult_le_compat _ _ _ _ (cmod_nonneg a) (cmod_nonneg (ev p a)) H IH). lra.
Qed.
Fixpoint zabs (p : list Z) : Z := match p with [] => 0%Z | c :: p' => (Z.abs c * 15 ^ Z.of_nat (S (length p')) + zabs p')%Z end.
Lemma absev_15 : forall p, 15 ^ length p * absev p (/ 15) = IZR (zabs p).
Proof.
  induction p as [|c p IH]; [cbn; lra|]. cbn [zabs length absev fold_right]. fold (absev p (/ 15)). rewrite plus_IZR, mult_IZR, <- IH, abs_IZR, <- pow_IZR. cbn [pow]. field.
Qed.
Lemma absev_15_le : forall p B, Z.leb (zabs p) (B * 15 ^ Z.of_nat (length p)) = true -> absev p (/ 15) <= IZR B.
Proof.
  intros p B H. apply Z.leb_le, IZR_le in H. rewrite mult_IZR, <- pow_IZR, <- absev_15 in H. assert (P : 0 < 15 ^ length p) by (apply pow_lt; lra). nra.
Qed.
Lemma ev_shift : forall n p a, ev (repeat 0%Z n ++ p) a = (a ^ n * ev p a)%C.
Proof. intros n p a. induction n; cbn [repeat app cpow]; [ring|]. change (ofR (IZR 0) + a * ev (repeat 0%Z n ++ p) a = a * a ^ n * ev p a)%C. rewrite IHn. change (ofR (IZR 0)) with c0. ring. Qed.

(** ** The terms of the remainder *)
Lemma telescope1 : forall m x, 1 < x -> / x ^ S m * INR m <= / (x - 1) ^ m - / x ^ m.
Proof.
  intros m x H. set (y := x - 1). assert (Py : 0 < y) by (unfold y; lra). assert (P := poly m (/ y) (Rinv_0_lt_compat _ Py)).
  assert (E : (1 + / y) ^ m = x ^ m * / y ^ m). { rewrite <- pow_inv. rewrite <- Rpow_mult_distr. f_equal. unfold y. field. unfold y in Py. lra. }
  rewrite E in P. assert (Px := pow_lt x m ltac:(lra)). assert (Pym := pow_lt y m Py).
  assert (I : INR m * / x <= INR m * / y) by (apply Rmult_le_compat_l; [apply pos_INR|apply Rinv_le_contravar; unfold y in *; lra]).
  assert (Q : 1 + INR m * / x <= x ^ m * / y ^ m) by lra. cbn [pow]. rewrite Rinv_mult.
  apply Rmult_le_reg_l with (x ^ m); [exact Px|]. apply Rle_trans with (INR m * / x); [right; field; lra|]. apply Rle_trans with (x ^ m * / y ^ m - 1); [lra|]. right. field. split; lra.
Qed.
Fixpoint rsum_ (f : nat -> R) (n : nat) : R := match n with O => 0 | S k => rsum_ f k + f k end.
Lemma telescope : forall m x n, 1 < x -> rsum_ (fun i => / (x + INR i) ^ S m) n * INR m <= / (x - 1) ^ m - / (x - 1 + INR n) ^ m.
Proof.
  intros m x n H. induction n as [|n IH]; [cbn [rsum_ INR]; rewrite Rplus_0_r; lra|]. cbn [rsum_]. rewrite S_INR. assert (A := pos_INR n). assert (T := telescope1 m (x + INR n) ltac:(lra)).
  replace (x + INR n - 1) with (x - 1 + INR n) in T by ring. replace (x - 1 + (INR n + 1)) with (x + INR n) by ring. lra.
Qed.
Lemma telescope_le : forall m x n, (0 < m)%nat -> 1 < x -> rsum_ (fun i => / (x + INR i) ^ S m) n <= / INR m * / (x - 1) ^ m.
Proof.
  intros m x n Hm H. assert (T := telescope m x n H). assert (P : 0 < INR m) by (apply lt_0_INR; lia). assert (A := pos_INR n).
  assert (Q : 0 < / (x - 1 + INR n) ^ m) by (apply Rinv_0_lt_compat, pow_lt; lra). apply Rmult_le_reg_r with (INR m); [exact P|]. replace (/ INR m * / (x - 1) ^ m * INR m) with (/ (x - 1) ^ m) by (field; split; [apply pow_nonzero|]; lra). lra.
Qed.

(** ** The asymptotic expansion *)
Lemma modinv_le : forall W x, 0 < x -> x <= Re W -> cmod (/ W)%C <= / x.
Proof.
  intros W x Hx H. assert (N : W <> c0) by (intros ->; cbn in H; lra). rewrite cmod_inv by exact N. apply Rinv_le_contravar; [exact Hx|].
  eapply Rle_trans; [|apply cmod_Re]. rewrite Rabs_right; lra.
Qed.
Lemma mod_1a : forall W, 0 < Re W -> 1 <= cmod (c1 + / W)%C.
Proof.
  intros W H. eapply Rle_trans; [|apply cmod_Re]. cbn. assert (N : 0 < norm2 W) by (unfold norm2; nra). assert (Q : 0 < Re W / norm2 W) by (apply Rdiv_lt_0_compat; lra). rewrite Rabs_right; lra.
Qed.
(** [l]: the expansion times 60060; [l']: minus the term; [q]: what is left *)
Record expansion (K : nat) (B : Z) : Type := {
  x_l : list Z; x_q : list Z;
  x_len : length x_l = (13 + K)%nat;
  x_id : padd (pmul (padd x_l (repeat 0%Z (S K) ++ [(- (60060 * Z.of_nat (fact K)))%Z])) (ppow [1; 1]%Z (12 + K))) (pscale (- 1) (phom x_l)) = repeat 0%Z (15 + K) ++ x_q;
  x_B : Z.leb (zabs x_q) (B * 15 ^ Z.of_nat (length x_q)) = true }.
Arguments x_l {K B}. Arguments x_q {K B}.
Section Expansion.
Variables (K : nat) (B : Z) (X : expansion K B).
Definition g (a : C) : C := (ofR (/ 60060) * ev (x_l X) a)%C.
Lemma INR_IZR : forall n, INR n = IZR (Z.of_nat n). Proof. intros. now rewrite INR_IZR_INZ. Qed.
Lemma delta_bound : forall W, 15 <= Re W -> cmod (g (/ W) - g (/ (W + c1)) - ofR (INR (fact K)) * (/ W) ^ S K)%C <= IZR B / 60060 * (/ Re W) ^ (15 + K).
Proof.
  intros W HW. set (a := (/ W)%C). set (b := (/ (W + c1))%C). assert (N : W <> c0) by (intros ->; cbn in HW; lra).
  assert (N1 : (W + c1)%C <> c0) by (intros E; assert (Q := f_equal Re E); cbn in Q; lra).
  assert (Na : (c1 + a)%C <> c0). { intros E. assert (Q := mod_1a W ltac:(lra)). fold a in Q. rewrite E, cmod_0 in Q. lra. }
  assert (Hab : (b * (c1 + a) = a)%C). { unfold a, b. field. split; assumption. }
  assert (Nl : x_l X <> []) by (intros E; assert (Q := x_len _ _ X); rewrite E in Q; cbn in Q; lia).
  assert (H1 := ev_hom (x_l X) a b Hab Nl). rewrite (x_len _ _ X) in H1. cbn [pred Nat.add] in H1.
  assert (I := f_equal (fun p => ev p a) (x_id _ _ X)). cbv beta in I. rewrite ev_add, ev_mul, ev_add, ev_shift, ev_pow, ev_scale, H1, ev_shift in I.
  assert (E1 : ev [1; 1]%Z a = (c1 + a)%C) by (apply C_eq; cbn; ring). rewrite E1 in I.
  set (la := ev (x_l X) a) in *. set (lb := ev (x_l X) b) in *. set (w := ((c1 + a) ^ (12 + K))%C) in *.
  assert (E2 : ev [(- (60060 * Z.of_nat (fact K)))%Z] a = (- (ofR 60060 * ofR (INR (fact K))))%C).
  { cbn [ev fold_right]. rewrite opp_IZR, mult_IZR, INR_IZR, ofR_opp, ofR_mul. ring. }
  rewrite E2 in I. change (ofR (IZR (- 1))) with (ofR (- (1))) in I. rewrite ofR_opp in I. change (ofR 1) with c1 in I.
  assert (D : ((la - lb - ofR 60060 * (ofR (INR (fact K)) * a ^ S K)) * w = a ^ (15 + K) * ev (x_q X) a)%C).
  { rewrite <- I. unfold w. change (S (S (S (S (S (S (S (S (S (S (S (S K))))))))))))%nat with (12 + K)%nat. ring. }
  assert (Pw : 1 <= cmod w). { unfold w. rewrite cmod_pow. apply pow_R1_Rle. apply mod_1a. lra. }
  assert (Ea : cmod a <= / Re W) by (apply modinv_le; lra).
  assert (E15 : cmod a <= / 15) by (eapply Rle_trans; [exact Ea|apply Rinv_le_contravar; lra]).
  assert (Q1 : cmod (ev (x_q X) a) <= IZR B) by (eapply Rle_trans; [apply ev_bound, E15|apply absev_15_le, (x_B _ _ X)]).
  assert (Z0 : g a = (ofR (/ 60060) * la)%C) by reflexivity. assert (Z1 : g b = (ofR (/ 60060) * lb)%C) by reflexivity. rewrite Z0, Z1.
  assert (U : (ofR (/ 60060) * ofR 60060 = c1)%C) by (rewrite <- ofR_mul; apply C_eq; cbn; [field|ring]).
  set (z := (la - lb - ofR 60060 * (ofR (INR (fact K)) * a ^ S K))%C) in *.
  replace (ofR (/ 60060) * la - ofR (/ 60060) * lb - ofR (INR (fact K)) * a ^ S K)%C with (ofR (/ 60060) * z)%C
    by (unfold z; transitivity (ofR (/ 60060) * la - ofR (/ 60060) * lb - ofR (/ 60060) * ofR 60060 * (ofR (INR (fact K)) * a ^ S K))%C; [ring|rewrite U; ring]).
  rewrite cmod_mul, cmod_ofR, Rabs_right by lra.
  assert (M := f_equal cmod D). rewrite !cmod_mul, cmod_pow in M.
  assert (Zn := cmod_nonneg z). assert (An := cmod_nonneg a).
  assert (T1 : cmod z <= cmod a ^ (15 + K) * cmod (ev (x_q X) a)) by (rewrite <- M; nra).
  assert (T2 : cmod a ^ (15 + K) <= (/ Re W) ^ (15 + K)) by (apply pow_incr; lra).
  assert (Pn : 0 <= cmod a ^ (15 + K)) by now apply pow_le.
  assert (T3 := Rmult_le_compat _ _ _ _ Pn (cmod_nonneg (ev (x_q X) a)) T2 Q1). nra.
Qed.
(** summed *)
Lemma sum_bound : forall V M, 15 <= Re V -> cmod (g (/ V) - g (/ (V + ofR (INR M))) - ofR (INR (fact K)) * series V K M)%C <= IZR B / 60060 * rsum_ (fun i => / (Re V + INR i) ^ (15 + K)) M.
Proof.
  intros V M HV. induction M as [|M IH].
  - cbn [series rsum_ INR]. replace (V + ofR 0)%C with V by (apply C_eq; cbn; ring). replace (g (/ V) - g (/ V) - ofR (INR (fact K)) * c0)%C with c0 by ring. rewrite cmod_0. lra.
  - cbn [series rsum_]. set (W := (V + ofR (INR M))%C) in *. assert (HW : Re W = Re V + INR M) by reflexivity. assert (P := pos_INR M).
    assert (D := delta_bound W ltac:(lra)). replace (V + ofR (INR (S M)))%C with (W + c1)%C by (unfold W; rewrite S_INR; apply C_eq; cbn; ring).
    assert (NW : W <> c0) by (intros E; rewrite E in HW; cbn in HW; lra).
    assert (PI_ : (/ W ^ S K = (/ W) ^ S K)%C).
    { assert (G : forall n, (/ W ^ n = (/ W) ^ n)%C). { induction n as [|n IHn]; cbn [cpow]; [apply C_eq; cbn; unfold norm2; cbn; field|]. rewrite <- IHn. field. split; [apply cpow_neq; exact NW|exact NW]. } apply G. }
    rewrite PI_. set (t := (ofR (INR (fact K)) * (/ W) ^ S K)%C) in *.
    replace (g (/ V) - g (/ (W + c1)) - ofR (INR (fact K)) * (series V K M + (/ W) ^ S K))%C with ((g (/ V) - g (/ W) - ofR (INR (fact K)) * series V K M) + (g (/ W) - g (/ (W + c1)) - t))%C by (unfold t; ring).
    eapply Rle_trans; [apply cmod_triang|]. rewrite HW in D. rewrite pow_inv in D. lra.
Qed.
Lemma g_small : forall W, 1 <= Re W -> hd 1%Z (x_l X) = 0%Z -> cmod (g (/ W))%C <= / Re W * absev (tl (x_l X)) 1.
Proof.
  intros W HW H0. assert (Nl : x_l X <> []) by (intros E; assert (Q := x_len _ _ X); rewrite E in Q; cbn in Q; lia). unfold g. destruct (x_l X) as [|c l]; [congruence|]. cbn in H0. subst c. cbn [tl].
  change (ev (0%Z :: l) (/ W)%C) with (ofR (IZR 0) + / W * ev l (/ W))%C. replace (ofR (IZR 0) + / W * ev l (/ W))%C with (/ W * ev l (/ W))%C by (change (ofR (IZR 0)) with c0; ring).
  rewrite !cmod_mul, cmod_ofR, Rabs_right by lra. assert (Ea : cmod (/ W)%C <= / Re W) by (apply modinv_le; lra).
  assert (I : / Re W <= 1) by (rewrite <- Rinv_1; apply Rinv_le_contravar; lra).
  assert (Eb : cmod (ev l (/ W)%C) <= absev l 1) by (apply ev_bound; lra). assert (T := Rmult_le_compat _ _ _ _ (cmod_nonneg _) (cmod_nonneg _) Ea Eb).
  assert (Z0 : 0 <= cmod (/ W)%C * cmod (ev l (/ W)%C)) by (apply Rmult_le_pos; apply cmod_nonneg). lra.
Qed.
End Expansion.
(** The expansions of the four functions. *)
Definition X1 : expansion 1 1466167.
Proof. refine (Build_expansion 1 1466167 [0; 60060; 30030; 10010; 0; -2002; 0; 1430; 0; -2002; 0; 4550; 0; -15202]%Z _ eq_refl _ _); [vm_compute; reflexivity|vm_compute; reflexivity]. Defined.
Definition X2 : expansion 2 24271396.
Proof. refine (Build_expansion 2 24271396 [0; 0; 60060; 60060; 30030; 0; -10010; 0; 10010; 0; -18018; 0; 50050; 0; -197626]%Z _ eq_refl _ _); [vm_compute; reflexivity|vm_compute; reflexivity]. Defined.
Definition X3 : expansion 3 426966465.
Proof. refine (Build_expansion 3 426966465 [0; 0; 0; 120120; 180180; 120120; 0; -60060; 0; 80080; 0; -180180; 0; 600600; 0; -2766764]%Z _ eq_refl _ _); [vm_compute; reflexivity|vm_compute; reflexivity]. Defined.
Definition X4 : expansion 4 7953805666.
Proof. refine (Build_expansion 4 7953805666 [0; 0; 0; 0; 360360; 720720; 600600; 0; -420420; 0; 720720; 0; -1981980; 0; 7807800; 0; -41501460]%Z _ eq_refl _ _); [vm_compute; reflexivity|vm_compute; reflexivity]. Defined.

(** ** The code *)
(** what is added to the sum *)
Definition tail_code (K : nat) (V : C) : C :=
  (let R_ := c1 / V ^ 2 in let P := horner 5 K R_ (R_ * ofR (Cat 5 K)) in
   c1 / V ^ S K * (V * (P + ofR (nth K FCT 0%R)) + ofR (/ 2 * nth (K + 1) FCT 0%R)))%C.
Lemma tail_poly : forall K V, V <> c0 -> (1 <= K <= 4)%nat -> let a := (/ V)%C in
  tail_code K V = (a ^ K * (ofR (nth K FCT 0%R) + ofR (Cat 0 K) * a ^ 2 + ofR (Cat 1 K) * a ^ 4 + ofR (Cat 2 K) * a ^ 6 + ofR (Cat 3 K) * a ^ 8 + ofR (Cat 4 K) * a ^ 10 + ofR (Cat 5 K) * a ^ 12)
     + ofR (/ 2 * nth (K + 1) FCT 0%R) * a ^ S K)%C.
Proof.
  intros K V N HK a. unfold tail_code. cbn [horner].
  generalize (ofR (Cat 0 K)) (ofR (Cat 1 K)) (ofR (Cat 2 K)) (ofR (Cat 3 K)) (ofR (Cat 4 K)) (ofR (Cat 5 K)) (ofR (nth K FCT 0%R)) (ofR (/ 2 * nth (K + 1) FCT 0%R)).
  intros x0 x1 x2 x3 x4 x5 F H.
  assert (Ea : (c1 / V ^ 2 = a ^ 2)%C) by (unfold a; field; exact N).
  assert (PI_ : forall n, (c1 / V ^ n = a ^ n)%C).
  { induction n as [|n IHn]; cbn [cpow]; [apply C_eq; cbn; unfold norm2; cbn; field|]. rewrite <- IHn. unfold a. field. split; [apply cpow_neq; exact N|exact N]. }
  rewrite Ea, PI_. replace (a ^ S K)%C with (a * a ^ K)%C by reflexivity. set (w := (a ^ K)%C).
  assert (Va : (V * a = c1)%C) by (unfold a; field; exact N).
  set (P := (a ^ 2 * (a ^ 2 * (a ^ 2 * (a ^ 2 * (a ^ 2 * (a ^ 2 * x5 + x4) + x3) + x2) + x1) + x0))%C).
  transitivity ((V * a) * (w * (P + F)) + H * (a * w))%C; [unfold P; ring|]. rewrite Va. unfold P. ring.
Qed.
(** the decimals *)
Lemma dec_bound : forall a (d0 d1 d2 d3 d4 d5 : R) K, (1 <= K)%nat -> cmod a <= / 15 ->
  Rabs d0 <= 5 / 10 ^ 17 -> Rabs d1 <= 5 / 10 ^ 17 -> Rabs d2 <= 5 / 10 ^ 17 -> Rabs d3 <= 5 / 10 ^ 17 -> Rabs d4 <= 5 / 10 ^ 17 -> Rabs d5 <= 5 / 10 ^ 17 ->
  cmod (a ^ K * (ofR d0 * a ^ 2 + ofR d1 * a ^ 4 + ofR d2 * a ^ 6 + ofR d3 * a ^ 8 + ofR d4 * a ^ 10 + ofR d5 * a ^ 12))%C <= 1 / 10 ^ 19.
Proof.
  intros a d0 d1 d2 d3 d4 d5 K HK Ha H0 H1 H2 H3 H4 H5. assert (A := cmod_nonneg a). set (r := cmod a) in *.
  replace (ofR d0 * a ^ 2 + ofR d1 * a ^ 4 + ofR d2 * a ^ 6 + ofR d3 * a ^ 8 + ofR d4 * a ^ 10 + ofR d5 * a ^ 12)%C
    with (a ^ 2 * (ofR d0 + ofR d1 * a ^ 2 + ofR d2 * a ^ 4 + ofR d3 * a ^ 6 + ofR d4 * a ^ 8 + ofR d5 * a ^ 10))%C by ring.
  rewrite !cmod_mul, !cmod_pow. fold r.
  assert (R1 : forall n, 0 <= r ^ n <= 1) by (intros n; split; [now apply pow_le|]; rewrite <- (pow1 n); apply pow_incr; lra).
  assert (RK : 0 <= r ^ K <= / 15). { destruct K as [|k]; [lia|]. cbn [pow]. assert (Q := R1 k). split; [nra|]. nra. }
  assert (R2 : 0 <= r ^ 2 <= / 225) by (cbn [pow]; split; nra).
  assert (TB : forall (d : R) n, Rabs d <= 5 / 10 ^ 17 -> cmod (ofR d * a ^ n)%C <= 5 / 10 ^ 17).
  { intros d n Hd. rewrite cmod_mul, cmod_ofR, cmod_pow. fold r. assert (Q := R1 n). assert (D := Rabs_pos d). nra. }
  assert (S : cmod (ofR d0 + ofR d1 * a ^ 2 + ofR d2 * a ^ 4 + ofR d3 * a ^ 6 + ofR d4 * a ^ 8 + ofR d5 * a ^ 10)%C <= 6 * (5 / 10 ^ 17)).
  { assert (T1 := TB d1 2%nat H1). assert (T2 := TB d2 4%nat H2). assert (T3 := TB d3 6%nat H3). assert (T4 := TB d4 8%nat H4). assert (T5 := TB d5 10%nat H5).
    assert (T0 : cmod (ofR d0) <= 5 / 10 ^ 17) by now rewrite cmod_ofR.
    eapply Rle_trans; [apply cmod_triang|]. eapply Rle_trans; [apply Rplus_le_compat_r, cmod_triang|]. eapply Rle_trans; [apply Rplus_le_compat_r, Rplus_le_compat_r, cmod_triang|].
    eapply Rle_trans; [apply Rplus_le_compat_r, Rplus_le_compat_r, Rplus_le_compat_r, cmod_triang|]. eapply Rle_trans; [apply Rplus_le_compat_r, Rplus_le_compat_r, Rplus_le_compat_r, Rplus_le_compat_r, cmod_triang|]. lra. }
  match goal with |- _ * (_ * ?z) <= _ => set (y := z) in * end. assert (Y0 : 0 <= y) by apply cmod_nonneg.
  assert (S2 : r ^ 2 * y <= / 225 * (6 * (5 / 10 ^ 17))) by (apply Rmult_le_compat; lra).
  assert (S3 : r ^ K * (r ^ 2 * y) <= / 15 * (/ 225 * (6 * (5 / 10 ^ 17)))) by (apply Rmult_le_compat; [lra|apply Rmult_le_pos; lra|lra|exact S2]).
  lra.
Qed.
Lemma tail_close_gen : forall K B (X : expansion K B) (c0' c1' c2' c3' c4' c5' F H : Z) V, (1 <= K <= 4)%nat -> 15 <= Re V ->
  x_l X = (repeat 0%Z K ++ [F; H; c0'; 0; c1'; 0; c2'; 0; c3'; 0; c4'; 0; c5'])%Z ->
  nth K FCT 0 = IZR F / 60060 -> / 2 * nth (K + 1) FCT 0 = IZR H / 60060 ->
  Rabs (Cat 0 K - IZR c0' / 60060) <= 5 / 10 ^ 17 -> Rabs (Cat 1 K - IZR c1' / 60060) <= 5 / 10 ^ 17 -> Rabs (Cat 2 K - IZR c2' / 60060) <= 5 / 10 ^ 17 ->
  Rabs (Cat 3 K - IZR c3' / 60060) <= 5 / 10 ^ 17 -> Rabs (Cat 4 K - IZR c4' / 60060) <= 5 / 10 ^ 17 -> Rabs (Cat 5 K - IZR c5' / 60060) <= 5 / 10 ^ 17 ->
  cmod (tail_code K V - g K B X (/ V))%C <= 1 / 10 ^ 19.
Proof.
  intros K B X e0 e1 e2 e3 e4 e5 F H V HK HV HL HF HH D0 D1 D2 D3 D4 D5. assert (N : V <> c0) by (intros ->; cbn in HV; lra).
  rewrite (tail_poly K V N HK). set (a := (/ V)%C). unfold g. rewrite HL, ev_shift, HF, HH. cbn [ev fold_right]. change (ofR (IZR 0)) with c0.
  assert (Ea : cmod a <= / 15) by (apply modinv_le; lra).
  eapply Rle_trans; [|exact (dec_bound a _ _ _ _ _ _ K (proj1 HK) Ea D0 D1 D2 D3 D4 D5)]. right. f_equal.
  assert (SP : forall (x : R) (z : Z), ofR (x - IZR z / 60060) = (ofR x - ofR (/ 60060) * ofR (IZR z))%C) by (intros; rewrite ofR_sub; unfold Rdiv; rewrite ofR_mul; ring).
  rewrite !SP. unfold Rdiv. rewrite !ofR_mul. set (s := ofR (/ 60060)). replace (a ^ S K)%C with (a * a ^ K)%C by reflexivity. ring.
Qed.
Ltac tc X := eapply (tail_close_gen _ _ X); [lia|assumption|reflexivity| | | | | | | |]; [..|]; cbn [nth FCT Nat.add Cat Ctab]; unfold Cat; cbn [nth Ctab]; try (apply Rabs_le); lra.
Lemma tail_close1 : forall V, 15 <= Re V -> cmod (tail_code 1 V - g 1 _ X1 (/ V))%C <= 1 / 10 ^ 19.
Proof. intros V HV. tc X1. Qed.
Lemma tail_close2 : forall V, 15 <= Re V -> cmod (tail_code 2 V - g 2 _ X2 (/ V))%C <= 1 / 10 ^ 19.
Proof. intros V HV. tc X2. Qed.
Lemma tail_close3 : forall V, 15 <= Re V -> cmod (tail_code 3 V - g 3 _ X3 (/ V))%C <= 1 / 10 ^ 19.
Proof. intros V HV. tc X3. Qed.
Lemma tail_close4 : forall V, 15 <= Re V -> cmod (tail_code 4 V - g 4 _ X4 (/ V))%C <= 1 / 10 ^ 19.
Proof. intros V HV. tc X4. Qed.

(** ** The number of terms *)
Lemma INR_ofR : forall n, ofR (INR (S n)) = (ofR (INR n) + c1)%C. Proof. intros. rewrite S_INR. apply C_eq; cbn; ring. Qed.
Lemma terms_spec : forall n K U j, terms n (S K) (U + ofR (INR j))%C (series U K (S j)) = ((U + ofR (INR (j + n)))%C, series U K (S (j + n))).
Proof.
  induction n as [|n IH]; intros K U j; cbn [terms]; [now rewrite Nat.add_0_r|].
  replace (U + ofR (INR j) + c1)%C with (U + ofR (INR (S j)))%C by (rewrite INR_ofR; ring).
  replace (series U K (S j) + c1 / (U + ofR (INR (S j))) ^ S K)%C with (series U K (S (S j))) by (cbn [series]; unfold cdiv; ring).
  rewrite IH. replace (S j + n)%nat with (j + S n)%nat by lia. reflexivity.
Qed.
Lemma int_spec : forall A, 0 <= A < 15 -> (int_ A <= 14)%nat /\ INR (int_ A) <= A < INR (int_ A) + 1.
Proof.
  intros A H. unfold int_. destruct (base_Int_part A) as (L & R_). assert (P : (0 <= Int_part A)%Z). { assert (Q : (-1 < Int_part A)%Z) by (apply lt_IZR; lra). lia. }
  assert (M : (Int_part A < 15)%Z) by (apply lt_IZR; lra). split; [lia|]. rewrite INR_IZR_INZ, Z2Nat.id by exact P. lra.
Qed.
Lemma series_split : forall U K n m, series U K (n + m) = (series U K n + series (U + ofR (INR n)) K m)%C.
Proof.
  intros U K n m. induction m as [|m IH]; [rewrite Nat.add_0_r; cbn [series]; ring|]. replace (n + S m)%nat with (S (n + m)) by lia. cbn [series]. rewrite IH, plus_INR, ofR_add.
  replace (U + ofR (INR n) + ofR (INR m))%C with (U + (ofR (INR n) + ofR (INR m)))%C by ring. ring.
Qed.
Lemma INR_unbounded : forall x, exists n, x < INR n.
Proof.
  intros x. exists (Z.to_nat (up (Rmax 0 x))). destruct (archimed (Rmax 0 x)) as (A & _). assert (B := Rmax_l 0 x). assert (D := Rmax_r 0 x).
  assert (P : (0 < up (Rmax 0 x))%Z) by (apply lt_IZR; lra). rewrite INR_IZR_INZ, Z2Nat.id by lia. lra.
Qed.
Section Main.
Variable clog : C -> C.
Lemma code_form : forall U K, (1 <= K <= 4)%nat -> 0 <= Re U -> U <> c0 -> exists n0, 15 <= Re (U + ofR (INR n0))%C /\
  polygamma clog U K = (ofR ((- 1) ^ S K) * (ofR (INR (fact K)) * series U K n0 + tail_code K (U + ofR (INR n0))))%C.
Proof.
  intros U K HK HU N. set (A := Rabs (Re U)). assert (EA : A = Re U) by (unfold A; apply Rabs_right; lra).
  set (n0 := if Rlt_dec A 15 then (16 - int_ A)%nat else 0%nat). exists n0.
  assert (VH : (if Rlt_dec A 15 then let r := terms (15 - int_ A) (S K) U (c1 / U ^ S K) in (fst r + c1, snd r) else (U, c0))%C = ((U + ofR (INR n0))%C, series U K n0)).
  { unfold n0. destruct (Rlt_dec A 15) as [L|L].
    - destruct (int_spec A) as (I1 & I2); [lra|]. assert (T := terms_spec (15 - int_ A) K U 0). cbn [INR series] in T.
      replace (U + ofR 0)%C with U in T by (apply C_eq; cbn; ring). replace (c0 + / U ^ S K)%C with (c1 / U ^ S K)%C in T by (unfold cdiv; ring).
      rewrite T. cbn [fst snd Nat.add]. replace (16 - int_ A)%nat with (S (15 - int_ A)) by lia. rewrite INR_ofR. f_equal; ring.
    - cbn [INR series]. f_equal. apply C_eq; cbn; ring. }
  assert (RE : 15 <= Re (U + ofR (INR n0))%C).
  { cbn. unfold n0. destruct (Rlt_dec A 15) as [L|L]; [|cbn [INR]; lra]. destruct (int_spec A) as (I1 & I2); [lra|]. rewrite minus_INR by lia. replace (INR 16) with 16 by (cbn; ring). lra. }
  split; [exact RE|]. unfold polygamma. cbv zeta in VH |- *. destruct (Nat.ltb_spec 4 K) as [L|_]; [lia|]. destruct (Rlt_dec (Re U) 0) as [L|_]; [lra|].
  fold A. rewrite VH. cbn [fst snd]. set (V := (U + ofR (INR n0))%C).
  assert (FK : nth (K + 1) FCT 0 = INR (fact K)). { destruct K as [|[|[|[|[|K]]]]]; try lia; cbn; ring. }
  assert (SK : nth K SGN 0 = (- 1) ^ S K). { destruct K as [|[|[|[|[|K]]]]]; try lia; cbn; ring. }
  destruct K as [|K]; [lia|]. rewrite SK. unfold tail_code. rewrite FK. ring.
Qed.
(** ** Convergence *)
Lemma term_bound : forall W K x, (1 <= K)%nat -> 1 <= x -> x <= Re W -> cmod (/ W ^ S K)%C <= / x ^ 2.
Proof.
  intros W K x HK Hx HW. assert (N : W <> c0) by (intros ->; cbn in HW; lra). rewrite cmod_inv by now apply cpow_neq. rewrite cmod_pow.
  assert (M : x <= cmod W) by (eapply Rle_trans; [exact HW|]; eapply Rle_trans; [apply Rle_abs|apply cmod_Re]).
  apply Rinv_le_contravar; [apply pow_lt; lra|]. apply Rle_trans with (cmod W ^ 2); [apply pow_incr; lra|]. apply Rle_pow; [lra|lia].
Qed.
Lemma series_bound : forall V K M, (1 <= K)%nat -> 2 <= Re V -> cmod (series V K M) <= / (Re V - 1).
Proof.
  intros V K M HK HV. assert (T := telescope_le 1 (Re V) M ltac:(lia) ltac:(lra)). cbn [INR] in T. rewrite Rinv_1, Rmult_1_l, pow_1 in T. eapply Rle_trans; [|exact T].
  clear T. induction M as [|M IH]; cbn [series rsum_]; [rewrite cmod_0; lra|]. eapply Rle_trans; [apply cmod_triang|]. apply Rplus_le_compat; [exact IH|].
  assert (P := pos_INR M). apply term_bound; [exact HK|lra|]. cbn. lra.
Qed.
Lemma C_complete : forall s : nat -> C, (forall eps, 0 < eps -> exists n0, forall n m, (n0 <= n)%nat -> (n0 <= m)%nat -> cmod (s n - s m)%C < eps) -> { L | limit s L }.
Proof.
  intros s H.
  assert (CR : Cauchy_crit (fun n => Re (s n))).
  { intros eps He. destruct (H eps He) as (n0 & K). exists n0. intros n m Hn Hm. unfold R_dist. eapply Rle_lt_trans; [|apply (K n m); lia]. exact (cmod_Re (s n - s m)%C). }
  assert (CI : Cauchy_crit (fun n => Im (s n))).
  { intros eps He. destruct (H eps He) as (n0 & K). exists n0. intros n m Hn Hm. unfold R_dist. eapply Rle_lt_trans; [|apply (K n m); lia]. exact (cmod_Im (s n - s m)%C). }
  destruct (R_complete _ CR) as (x & Hx). destruct (R_complete _ CI) as (y & Hy). exists (mk x y). intros eps He.
  destruct (Hx (eps / 2) ltac:(lra)) as (n1 & K1). destruct (Hy (eps / 2) ltac:(lra)) as (n2 & K2). exists (Nat.max n1 n2). intros n Hn.
  specialize (K1 n ltac:(lia)). specialize (K2 n ltac:(lia)). unfold R_dist in *.
  replace (s n - mk x y)%C with (ofR (Re (s n) - x) + ci * ofR (Im (s n) - y))%C by (apply C_eq; cbn; ring).
  eapply Rle_lt_trans; [apply cmod_triang|]. rewrite cmod_mul, !cmod_ofR. assert (CC : cmod ci = 1) by (unfold cmod, norm2; cbn; replace (0 * 0 + 1 * 1) with 1 by ring; apply sqrt_1). rewrite CC. lra.
Qed.
Lemma limit_scal : forall c s L, limit s L -> limit (fun n => (c * s n)%C) (c * L)%C.
Proof.
  intros c s L H eps He. assert (P := cmod_nonneg c). assert (Q : 0 < cmod c + 1) by lra. destruct (H (eps / (cmod c + 1)) (Rdiv_lt_0_compat _ _ He Q)) as (n0 & K). exists n0. intros n Hn. specialize (K n Hn).
  replace (c * s n - c * L)%C with (c * (s n - L))%C by ring. rewrite cmod_mul. assert (Z := cmod_nonneg (s n - L)%C).
  apply Rle_lt_trans with ((cmod c + 1) * cmod (s n - L)%C); [nra|]. apply Rlt_le_trans with ((cmod c + 1) * (eps / (cmod c + 1))); [apply Rmult_lt_compat_l; lra|]. right. field. lra.
Qed.
Lemma series_conv : forall U K, (1 <= K)%nat -> 0 <= Re U -> { L | limit (series U K) L }.
Proof.
  intros U K HK HU. apply C_complete. intros eps He.
  assert (AR : exists N, 2 < INR N /\ / (INR N - 1) < eps). { destruct (INR_unbounded (Rmax 2 (1 + 2 / eps))) as (N & HN). assert (A := Rmax_l 2 (1 + 2 / eps)). assert (B := Rmax_r 2 (1 + 2 / eps)). exists N. split; [lra|].
    assert (P : 0 < 2 / eps) by (apply Rdiv_lt_0_compat; lra). apply Rlt_le_trans with (/ (2 / eps)); [apply Rinv_lt_contravar; [apply Rmult_lt_0_compat; lra|lra]|]. replace (/ (2 / eps)) with (eps / 2) by (field; lra). lra. }
  destruct AR as (N & N2 & NE). exists N.
  assert (G : forall n m, (N <= n)%nat -> (n <= m)%nat -> cmod (series U K n - series U K m)%C < eps).
  { intros n m Hn Hm. replace m with (n + (m - n))%nat by lia. rewrite series_split. replace (series U K n - (series U K n + series (U + ofR (INR n)) K (m - n)))%C with (- series (U + ofR (INR n)) K (m - n))%C by ring.
    rewrite cmod_opp. assert (L : INR N <= INR n) by now apply le_INR. assert (RE : Re (U + ofR (INR n))%C = Re U + INR n) by reflexivity.
    eapply Rle_lt_trans; [apply series_bound; [exact HK|lra]|]. eapply Rle_lt_trans; [|exact NE]. apply Rinv_le_contravar; lra. }
  intros n m Hn Hm. destruct (le_lt_dec n m) as [L|L]; [now apply G|]. rewrite cmod_sub_sym. apply G; lia.
Qed.
(** ** C62 *)
Lemma bound_gen : forall K B (X : expansion K B) U, (1 <= K <= 4)%nat -> hd 1%Z (x_l X) = 0%Z -> 0 <= Re U -> U <> c0 ->
  (forall V, 15 <= Re V -> cmod (tail_code K V - g K B X (/ V))%C <= 1 / 10 ^ 19) -> 0 <= IZR B ->
  forall L, is_polygamma U K L -> cmod (polygamma clog U K - L)%C <= 1 / 10 ^ 19 + IZR B / 60060 * (/ INR (14 + K) * / 14 ^ (14 + K)).
Proof.
  intros K B X U HK H0 HU N TC PB L HL. destruct (code_form U K HK HU N) as (n0 & HV & ->). set (V := (U + ofR (INR n0))%C) in *. set (s := ofR ((- 1) ^ S K)).
  set (bd := IZR B / 60060 * (/ INR (14 + K) * / 14 ^ (14 + K))). apply Rnot_lt_le. intros LT.
  match type of LT with _ < ?z => set (e := (z - (1 / 10 ^ 19 + bd)) / 2) end. assert (Pe : 0 < e) by (unfold e; lra).
  destruct (HL e Pe) as (n1 & K1).
  set (GM := absev (tl (x_l X)) 1). assert (PG : 0 <= GM) by (apply absev_nonneg; lra).
  destruct (INR_unbounded (GM / e)) as (m & Hm). set (M := (m + n1)%nat). specialize (K1 (n0 + M)%nat ltac:(unfold M; lia)).
  assert (SB := sum_bound K B X V M HV). assert (RV : Re (V + ofR (INR M))%C = Re V + INR M) by reflexivity. assert (P := pos_INR M).
  assert (GS := g_small K B X (V + ofR (INR M))%C ltac:(lra) H0). fold GM in GS.
  assert (Em : GM <= e * INR M). { unfold M. rewrite plus_INR. assert (Q := pos_INR n1). assert (A : GM = e * (GM / e)) by (field; lra). nra. }
  assert (GSe : cmod (g K B X (/ (V + ofR (INR M)))%C) < e).
  { eapply Rle_lt_trans; [exact GS|]. rewrite RV. apply Rmult_lt_reg_l with (Re V + INR M); [lra|]. rewrite <- Rmult_assoc, Rinv_r by lra. nra. }
  assert (TL := telescope_le (14 + K) (Re V) M ltac:(lia) ltac:(lra)). change (S (14 + K)) with (15 + K)%nat in TL.
  assert (TL2 : / INR (14 + K) * / (Re V - 1) ^ (14 + K) <= / INR (14 + K) * / 14 ^ (14 + K)).
  { apply Rmult_le_compat_l; [left; apply Rinv_0_lt_compat, lt_0_INR; lia|]. apply Rinv_le_contravar; [apply pow_lt; lra|apply pow_incr; lra]. }
  assert (SBd : IZR B / 60060 * rsum_ (fun i => / (Re V + INR i) ^ (15 + K)) M <= bd) by (unfold bd; apply Rmult_le_compat_l; lra).
  specialize (TC V HV). rewrite series_split in K1. fold V in K1. rewrite ofR_mul in K1. fold s in K1.
  set (f := ofR (INR (fact K))) in *. set (S0 := series U K n0) in *. set (S1 := series V K M) in *. set (gV := g K B X (/ V)%C) in *. set (gM := g K B X (/ (V + ofR (INR M)))%C) in *. set (t := tail_code K V) in *.
  assert (Ms : cmod s = 1). { unfold s. rewrite cmod_ofR, <- RPow_abs, Rabs_left by lra. replace (- -1) with 1 by ring. apply pow1. }
  assert (BIG : cmod (s * (f * S0 + t) - L)%C <= cmod (t - gV)%C + (cmod (gV - gM - f * S1)%C + cmod gM) + cmod (s * f * (S0 + S1) - L)%C).
  { replace (s * (f * S0 + t) - L)%C with (s * ((t - gV) + ((gV - gM - f * S1) + gM)) + (s * f * (S0 + S1) - L))%C by ring.
    eapply Rle_trans; [apply cmod_triang|]. apply Rplus_le_compat_r. rewrite cmod_mul, Ms, Rmult_1_l. eapply Rle_trans; [apply cmod_triang|]. apply Rplus_le_compat_l. apply cmod_triang. }
  unfold e in *. lra.
Qed.
(** In the closed right half plane without 0 the series converges and the code is within 2e-17 of its sum. *)
Theorem C62_polygamma : forall U K, (1 <= K <= 4)%nat -> 0 <= Re U -> U <> c0 ->
  exists L, is_polygamma U K L /\ cmod (polygamma clog U K - L)%C <= 2 / 10 ^ 17.
Proof.
  intros U K HK HU N. destruct (series_conv U K ltac:(lia) HU) as (L0 & HL0). set (L := (ofR ((- 1) ^ S K * INR (fact K)) * L0)%C).
  assert (HL : is_polygamma U K L) by (apply limit_scal; exact HL0). exists L. split; [exact HL|].
  assert (CASES : K = 1%nat \/ K = 2%nat \/ K = 3%nat \/ K = 4%nat) by lia. destruct CASES as [->|[->|[->| ->]]].
  - eapply Rle_trans; [apply (bound_gen 1 _ X1 U HK eq_refl HU N tail_close1 ltac:(lra) L HL)|]. cbn [Nat.add]. replace (INR 15) with 15 by (cbn; ring). lra.
  - eapply Rle_trans; [apply (bound_gen 2 _ X2 U HK eq_refl HU N tail_close2 ltac:(lra) L HL)|]. cbn [Nat.add]. replace (INR 16) with 16 by (cbn; ring). lra.
  - eapply Rle_trans; [apply (bound_gen 3 _ X3 U HK eq_refl HU N tail_close3 ltac:(lra) L HL)|]. cbn [Nat.add]. replace (INR 17) with 17 by (cbn; ring). lra.
  - eapply Rle_trans; [apply (bound_gen 4 _ X4 U HK eq_refl HU N tail_close4 ltac:(lra) L HL)|]. cbn [Nat.add]. replace (INR 18) with 18 by (cbn; ring). lra.
Qed.
End Main.

(** ** The left half plane *)
Definition real (z : C) : Prop := Im z = 0.
Lemma real_ofR : forall x, real (ofR x). Proof. reflexivity. Qed.
Lemma real_add : forall x y, real x -> real y -> real (x + y)%C. Proof. unfold real; intros; cbn; lra. Qed.
Lemma real_mul : forall x y, real x -> real y -> real (x * y)%C. Proof. unfold real; intros x y H1 H2; cbn; rewrite H1, H2; ring. Qed.
Lemma real_inv : forall x, real x -> real (/ x)%C. Proof. unfold real; intros x H; cbn; rewrite H; unfold Rdiv; ring. Qed.
Lemma real_div : forall x y, real x -> real y -> real (x / y)%C. Proof. intros. apply real_mul; [assumption|now apply real_inv]. Qed.
Lemma real_pow : forall x n, real x -> real (x ^ n)%C. Proof. intros x n H. induction n; cbn [cpow]; [reflexivity|now apply real_mul]. Qed.
Lemma real_c1 : real c1. Proof. reflexivity. Qed.
Lemma real_series : forall U K n, real U -> real (series U K n).
Proof. intros U K n H. induction n; cbn [series]; [reflexivity|]. apply real_add; [exact IHn|]. apply real_inv, real_pow, real_add; [exact H|apply real_ofR]. Qed.
Lemma real_horner : forall i K R_ P, real R_ -> real P -> real (horner i K R_ P).
Proof. induction i; intros K R_ P H1 H2; cbn [horner]; [exact H2|]. apply IHi; [exact H1|]. apply real_mul; [exact H1|]. apply real_add; [exact H2|apply real_ofR]. Qed.
Lemma tanh_half : forall x, 1 <= x -> / 2 <= tanh x <= 1.
Proof.
  intros x H. assert (E1 := exp_pos x). assert (E2 := exp_pos (- x)). assert (PR : exp x * exp (- x) = 1) by (rewrite <- exp_plus, Rplus_opp_r; apply exp_0).
  assert (G : 1 + x < exp x) by (apply exp_ineq1; lra). assert (T : tanh x = (exp x - exp (- x)) / (exp x + exp (- x))) by (unfold tanh, sinh, cosh; field; lra).
  assert (Q : 3 * exp (- x) <= exp x) by nra. rewrite T. split.
  - apply Rmult_le_reg_r with (exp x + exp (- x)); [lra|]. replace ((exp x - exp (- x)) / (exp x + exp (- x)) * (exp x + exp (- x))) with (exp x - exp (- x)) by (field; lra). lra.
  - apply Rmult_le_reg_r with (exp x + exp (- x)); [lra|]. replace ((exp x - exp (- x)) / (exp x + exp (- x)) * (exp x + exp (- x))) with (exp x - exp (- x)) by (field; lra). lra.
Qed.
Lemma half_code : forall clog, 1 / 2 <= Im (polygamma clog (mk (- / 2) 0) 1).
Proof.
  intros clog. unfold polygamma. cbn [Nat.ltb Nat.leb Re]. cbv zeta. destruct (Rlt_dec (- / 2) 0) as [_|N]; [|lra].
  assert (EA : Rabs (- / 2) = / 2) by (rewrite Rabs_left; lra). rewrite EA. destruct (Rlt_dec (/ 2) 15) as [_|N]; [|lra].
  assert (I0 : int_ (/ 2) = 0%nat).
  { destruct (int_spec (/ 2)) as (_ & I2); [lra|]. destruct (int_ (/ 2)) as [|n]; [reflexivity|]. rewrite S_INR in I2. assert (P := pos_INR n). lra. }
  rewrite I0. set (U := ofR (/ 2)). assert (EU : (- mk (- / 2) 0)%C = U) by (apply C_eq; cbn; ring). rewrite EU.
  assert (T := terms_spec 15 1 U 0). cbn [INR series] in T.
  replace (U + ofR 0)%C with U in T by (apply C_eq; cbn; ring). replace (c0 + / U ^ 2)%C with (c1 / U ^ 2)%C in T by (unfold cdiv; ring).
  change (15 - 0)%nat with 15%nat. rewrite T. cbn [fst snd]. clear T.
  assert (EV : (U + ofR (INR (0 + 15)) + c1 = ofR (33 / 2))%C) by (apply C_eq; cbn; field). rewrite EV. set (V := ofR (33 / 2)).
  assert (RV : real V) by reflexivity. assert (RU : real U) by reflexivity.
  set (S0 := (series U 1 (0 + 15) + / (U + ofR (INR (0 + 15))) ^ 2)%C).
  assert (RS : real S0) by (apply real_add; [apply real_series; exact RU|apply real_inv, real_pow, real_add; [exact RU|reflexivity]]).
  match goal with |- _ <= Im (?h + c1 / U ^ 2 + ?p)%C => assert (RH : real h); [|set (H0 := h) in *; set (P0 := p)] end.
  { repeat first [apply real_inv|apply real_add|apply real_mul|apply real_div|apply real_pow|apply real_horner|apply real_series|exact RS|exact RU|exact RV|reflexivity]. }
  assert (RE2 : real (c1 / U ^ 2)%C) by (apply real_div; [reflexivity|apply real_pow; exact RU]).
  assert (EI : Im (H0 + c1 / U ^ 2 + P0)%C = Im P0) by (change (Im H0 + Im (c1 / U ^ 2)%C + Im P0 = Im P0); rewrite RH, RE2; ring). rewrite EI. unfold P0, V. clear.
  assert (RX : Re (ofR (33 / 2) * ofR PI)%C = PI / 2 + 2 * INR 8 * PI) by (cbn; field). rewrite RX, sin_period, cos_period, sin_PI2, cos_PI2.
  assert (PP := PI_RGT_0). assert (P3 : 3 < PI) by (assert (Q := PI2_3_2); unfold PI2 in Q; lra).
  assert (TH := tanh_half (PI / 2 + 2 * INR 8 * PI)). set (t := tanh _) in *.
  assert (TT : / 2 <= t <= 1) by (apply TH; cbn; lra).
  match goal with |- _ <= Im ((?p ^ 2 + c1) * ofR ?c)%C => assert (EP : p = mk (- (t * t / (1 + t * t))) (- (t / (1 + t * t)))); [|rewrite EP] end.
  { apply C_eq; cbn; unfold norm2; cbn; field; nra. }
  cbn [Im cmul cadd cpow Re c1 ofR].
  set (u := / (1 + t * t)). assert (U1 : / 2 <= u) by (apply Rinv_le_contravar; nra).
  assert (U2 : t * t / (1 + t * t) = t * t * u) by reflexivity. assert (U3 : t / (1 + t * t) = t * u) by reflexivity. rewrite U2, U3.
  assert (A1 : / 8 <= t * t * u) by nra. assert (A2 : / 4 <= t * u) by nra.
  assert (A3 : / 32 <= (t * t * u) * (t * u)) by nra. lra.
Qed.
(** At U = -1/2 the trigamma function is real, the code returns a number with imaginary part above 1/2. *)
Theorem C62_left_refuted : exists U, Re U < 0 /\ (forall n, (U + ofR (INR n))%C <> c0) /\ exists L, is_polygamma U 1 L /\ forall clog, 1 / 2 <= cmod (polygamma clog U 1 - L)%C.
Proof.
  exists (mk (- / 2) 0). split; [cbn; lra|]. split.
  - intros n E. assert (Q := f_equal Re E). cbn in Q. destruct n as [|n]; [cbn in Q; lra|]. rewrite S_INR in Q. assert (P := pos_INR n). lra.
  - set (U := mk (- / 2) 0). destruct (series_conv (U + ofR (INR 1))%C 1 ltac:(lia)) as (L1 & HL1); [cbn; lra|].
    assert (HS : limit (series U 1) (series U 1 1 + L1)%C).
    { intros eps He. destruct (HL1 eps He) as (n0 & K). exists (S n0). intros n Hn. destruct n as [|n]; [lia|]. specialize (K n ltac:(lia)). change (S n) with (1 + n)%nat. rewrite series_split.
      replace (series U 1 1 + series (U + ofR (INR 1)) 1 n - (series U 1 1 + L1))%C with (series (U + ofR (INR 1)) 1 n - L1)%C by ring. exact K. }
    set (L := (ofR ((- 1) ^ 2 * INR (fact 1)) * (series U 1 1 + L1))%C). assert (HL : is_polygamma U 1 L) by (apply limit_scal; exact HS).
    exists L. split; [exact HL|]. intros clog.
    assert (RL : Im L = 0).
    { destruct (Req_dec (Im L) 0) as [E|E]; [exact E|]. destruct (HL (Rabs (Im L)) (Rabs_pos_lt _ E)) as (n0 & K). specialize (K n0 (le_n _)).
      assert (A := cmod_Im (ofR ((- 1) ^ 2 * INR (fact 1)) * series U 1 n0 - L)%C). assert (RS : real (ofR ((- 1) ^ 2 * INR (fact 1)) * series U 1 n0)%C) by (apply real_mul; [reflexivity|apply real_series; reflexivity]).
      unfold real in RS. change (Im (ofR ((- 1) ^ 2 * INR (fact 1)) * series U 1 n0 - L)%C) with (Im (ofR ((- 1) ^ 2 * INR (fact 1)) * series U 1 n0)%C - Im L) in A. rewrite RS, Rminus_0_l, Rabs_Ropp in A. lra. }
    assert (H := half_code clog). fold U in H. eapply Rle_trans; [|apply cmod_Im]. change (Im (polygamma clog U 1 - L)%C) with (Im (polygamma clog U 1) - Im L). rewrite RL, Rminus_0_r. rewrite Rabs_right; lra.
Qed.
(** Orders above 4 are not covered; the code returns 0. *)
Theorem C62_order : forall clog U K, (4 < K)%nat -> polygamma clog U K = c0.
Proof. intros clog U K H. unfold polygamma. destruct (Nat.ltb_spec 4 K); [reflexivity|lia]. Qed.
(** psi_1(15) = 0.06893822... *)
Example C62_case : forall clog, cmod (polygamma clog (ofR 15) 1 - ofR (6893822 / 10 ^ 8))%C <= 2 / 10 ^ 8.
Proof.
  intros clog. assert (E : polygamma clog (ofR 15) 1 = tail_code 1 (ofR 15)).
  { unfold polygamma. cbn [Nat.ltb Nat.leb Re ofR]. cbv zeta. rewrite Rabs_right by lra. destruct (Rlt_dec 15 0) as [L|_]; [lra|]. destruct (Rlt_dec 15 15) as [L|_]; [lra|]. cbn [fst snd nth SGN].
    unfold tail_code. replace (ofR 1) with c1 by reflexivity. ring. }
  rewrite E, tail_poly by (try lia; apply ofR_neq; lra). rewrite <- ofR_inv by lra. rewrite !cpow_ofR, <- !ofR_mul, <- !ofR_add, <- !ofR_mul, <- !ofR_add, <- ofR_sub, cmod_ofR.
  unfold Cat. cbn [nth Ctab FCT Nat.add]. apply Rabs_le. lra.
Qed.
Example C62_case_complex : exists L, is_polygamma (mk (/ 2) (- 3)) 2 L /\ cmod (polygamma (fun z => z) (mk (/ 2) (- 3)) 2 - L)%C <= 2 / 10 ^ 17.
Proof. apply C62_polygamma; [lia|cbn; lra|]. intros E. assert (Q := f_equal Re E). cbn in Q. lra. Qed.
Print Assumptions C62_polygamma.
Print Assumptions C62_left_refuted.
Print Assumptions C62_order.
