(** Complex numbers over the real numbers: a field with a modulus. *)
From Coq Require Import Reals Lra Lia Psatz Field.
Local Open Scope R_scope.
Record C := mk { Re : R; Im : R }.
Lemma C_eq : forall x y, Re x = Re y -> Im x = Im y -> x = y.
Proof. intros [a b] [c d]; cbn; intros -> ->; reflexivity. Qed.
Definition c0 := mk 0 0. Definition c1 := mk 1 0. Definition ci := mk 0 1.
Definition ofR (r : R) := mk r 0.
Definition cadd x y := mk (Re x + Re y) (Im x + Im y).
Definition csub x y := mk (Re x - Re y) (Im x - Im y).
Definition copp x := mk (- Re x) (- Im x).
Definition cmul x y := mk (Re x * Re y - Im x * Im y) (Re x * Im y + Im x * Re y).
Definition norm2 x := Re x * Re x + Im x * Im x.
Definition cinv x := mk (Re x / norm2 x) (- Im x / norm2 x).
Definition cdiv x y := cmul x (cinv y).
Declare Scope C_scope. Delimit Scope C_scope with C. Bind Scope C_scope with C.
Infix "+" := cadd : C_scope. Infix "-" := csub : C_scope. Infix "*" := cmul : C_scope. Infix "/" := cdiv : C_scope.
Notation "- x" := (copp x) : C_scope. Notation "/ x" := (cinv x) : C_scope.
Fixpoint cpow (x : C) (n : nat) : C := match n with O => c1 | S k => (x * cpow x k)%C end.
Infix "^" := cpow : C_scope.

Lemma norm2_nonneg : forall x, 0 <= norm2 x. Proof. intros x. unfold norm2. nra. Qed.
Lemma norm2_pos : forall x, x <> c0 -> 0 < norm2 x.
Proof.
  intros x H. destruct (Rle_lt_or_eq_dec _ _ (norm2_nonneg x)) as [L|E]; [exact L|]. elim H. unfold norm2 in E. apply C_eq; cbn; nra.
Qed.
Lemma C_ring : ring_theory c0 c1 cadd cmul csub copp eq.
Proof. constructor; intros; apply C_eq; cbn; ring. Qed.
Lemma cinv_l : forall x, x <> c0 -> (/ x * x)%C = c1.
Proof. intros x H. assert (N := norm2_pos x H). apply C_eq; cbn; unfold norm2 in *; field; lra. Qed.
Lemma c1_neq_c0 : c1 <> c0. Proof. intros H. assert (E := f_equal Re H). cbn in E. lra. Qed.
Lemma C_field : field_theory c0 c1 cadd cmul csub copp cdiv cinv eq.
Proof. constructor; [exact C_ring|exact c1_neq_c0|reflexivity|exact cinv_l]. Qed.
Add Ring C_ring0 : C_ring.
Lemma C_power : power_theory c1 cmul (@eq C) N.to_nat cpow.
Proof.
  constructor. intros r [|p]; [reflexivity|]. cbn [N.to_nat]. unfold pow_N.
  assert (S1 : forall n, cpow r (S n) = cmul r (cpow r n)) by reflexivity.
  assert (PA : forall n m, cpow r (n + m) = cmul (cpow r n) (cpow r m)).
  { induction n as [|n IHn]; intros m; cbn [cpow Nat.add]; [ring|]. rewrite IHn. ring. }
  induction p as [p IH|p IH|].
  - rewrite Pos2Nat.inj_xI. cbn [pow_pos]. replace (2 * Pos.to_nat p)%nat with (Pos.to_nat p + Pos.to_nat p)%nat by lia. rewrite S1, PA, IH. reflexivity.
  - rewrite Pos2Nat.inj_xO. cbn [pow_pos]. replace (2 * Pos.to_nat p)%nat with (Pos.to_nat p + Pos.to_nat p)%nat by lia. now rewrite PA, IH.
  - cbn [cpow pow_pos]. change (Pos.to_nat 1) with 1%nat. cbn [cpow]. ring.
Qed.
(** real constants *)
Lemma ofR_add : forall a b, ofR (a + b) = (ofR a + ofR b)%C. Proof. intros; apply C_eq; cbn; ring. Qed.
Lemma ofR_sub : forall a b, ofR (a - b) = (ofR a - ofR b)%C. Proof. intros; apply C_eq; cbn; ring. Qed.
Lemma ofR_opp : forall a, ofR (- a) = (- ofR a)%C. Proof. intros; apply C_eq; cbn; ring. Qed.
Lemma ofR_mul : forall a b, ofR (a * b) = (ofR a * ofR b)%C. Proof. intros; apply C_eq; cbn; ring. Qed.
Lemma ofR_inv : forall a, a <> 0 -> ofR (/ a) = (/ ofR a)%C. Proof. intros; apply C_eq; cbn; unfold norm2; cbn; field; lra. Qed.
Lemma ofR_neq : forall a, a <> 0 -> ofR a <> c0. Proof. intros a H E. apply H. exact (f_equal Re E). Qed.

(** ** modulus *)
Definition cmod (x : C) : R := sqrt (norm2 x).
Lemma cmod_nonneg : forall x, 0 <= cmod x. Proof. intros; apply sqrt_pos. Qed.
Lemma cmod_sq : forall x, cmod x * cmod x = norm2 x. Proof. intros; apply sqrt_sqrt, norm2_nonneg. Qed.
Lemma norm2_mul : forall x y, norm2 (x * y)%C = norm2 x * norm2 y. Proof. intros; unfold norm2; cbn; ring. Qed.
Lemma cmod_mul : forall x y, cmod (x * y)%C = cmod x * cmod y.
Proof. intros; unfold cmod. rewrite norm2_mul. apply sqrt_mult; apply norm2_nonneg. Qed.
Lemma cmod_ofR : forall a, cmod (ofR a) = Rabs a.
Proof. intros; unfold cmod, norm2; cbn. replace (a * a + 0 * 0) with (Rsqr a) by (unfold Rsqr; ring). apply sqrt_Rsqr_abs. Qed.
Lemma cmod_0 : cmod c0 = 0. Proof. change c0 with (ofR 0). rewrite cmod_ofR. apply Rabs_R0. Qed.
Lemma cmod_1 : cmod c1 = 1. Proof. change c1 with (ofR 1). rewrite cmod_ofR. apply Rabs_R1. Qed.
Lemma cmod_opp : forall x, cmod (- x)%C = cmod x. Proof. intros; unfold cmod; f_equal; unfold norm2; cbn; ring. Qed.
Lemma cmod_Re : forall x, Rabs (Re x) <= cmod x.
Proof. intros. apply Rsqr_incr_0_var; [|apply cmod_nonneg]. rewrite <- Rsqr_abs. unfold Rsqr at 2. rewrite cmod_sq. unfold norm2, Rsqr. nra. Qed.
Lemma cmod_Im : forall x, Rabs (Im x) <= cmod x.
Proof. intros. apply Rsqr_incr_0_var; [|apply cmod_nonneg]. rewrite <- Rsqr_abs. unfold Rsqr at 2. rewrite cmod_sq. unfold norm2, Rsqr. nra. Qed.
Lemma cmod_triang : forall x y, cmod (x + y)%C <= cmod x + cmod y.
Proof.
  intros x y. apply Rsqr_incr_0_var; [|assert (A := cmod_nonneg x); assert (B := cmod_nonneg y); lra]. unfold Rsqr. rewrite cmod_sq.
  replace ((cmod x + cmod y) * (cmod x + cmod y)) with (cmod x * cmod x + cmod y * cmod y + 2 * (cmod x * cmod y)) by ring. rewrite !cmod_sq.
  assert (H : Re x * Re y + Im x * Im y <= cmod x * cmod y).
  { rewrite <- cmod_mul. rewrite <- (cmod_opp (x * y)%C). assert (CS : cmod (- (x * y))%C = cmod (x * mk (Re y) (- Im y))%C).
    { unfold cmod. f_equal. unfold norm2; cbn; ring. }
    rewrite CS. eapply Rle_trans; [|apply cmod_Re]. eapply Rle_trans; [|apply Rle_abs]. cbn. lra. }
  unfold norm2 in *; cbn. lra.
Qed.
Lemma cmod_sub : forall x y, cmod (x - y)%C <= cmod x + cmod y.
Proof. intros. replace (x - y)%C with (x + - y)%C by (apply C_eq; cbn; ring). rewrite <- (cmod_opp y). apply cmod_triang. Qed.
Lemma cmod_sub_sym : forall x y, cmod (x - y)%C = cmod (y - x)%C.
Proof. intros. rewrite <- cmod_opp. f_equal. apply C_eq; cbn; ring. Qed.
Lemma cmod_inv : forall x, x <> c0 -> cmod (/ x)%C = / cmod x.
Proof.
  intros x H. assert (M : cmod (/ x)%C * cmod x = 1) by (rewrite <- cmod_mul, cinv_l by auto; apply cmod_1).
  assert (cmod x <> 0) by (intros E; rewrite E in M; lra). apply Rmult_eq_reg_r with (cmod x); auto. rewrite M. now rewrite Rinv_l.
Qed.
Lemma cmod_pow : forall x n, cmod (x ^ n)%C = cmod x ^ n.
Proof. induction n; cbn [cpow pow]; [apply cmod_1|]. now rewrite cmod_mul, IHn. Qed.
Lemma cmod_pos : forall x, x <> c0 -> 0 < cmod x.
Proof. intros x H. apply sqrt_lt_R0. now apply norm2_pos. Qed.
Lemma cpow_ofR : forall a n, (ofR a ^ n)%C = ofR (a ^ n).
Proof. induction n; cbn [cpow pow]; [reflexivity|]. now rewrite IHn, ofR_mul. Qed.
Lemma cpow_neq : forall x n, x <> c0 -> (x ^ n)%C <> c0.
Proof. intros x n H E. assert (P := cmod_pow x n). rewrite E, cmod_0 in P. assert (Q := pow_lt _ n (cmod_pos x H)). lra. Qed.
