(** A ladder of real vector spaces: spaces of dimension [d k], k = 0 .. M, with raising matrices [U k] from level k to
    level k+1 whose transposes lower, and the commutator of the spin algebra (in the units of the code: level k has
    sz = 2k - M, and S^+ S^- - S^- S^+ = 4 sz).  Everything about multiplets used in C53 is proved here from that. *)
From Coq Require Import Reals Lra Lia Arith List Bool.
From Verif Require Import LinR.
Import ListNotations.
Open Scope R_scope.

Definition zk (M k : nat) : R := 2 * INR k - INR M.
(** eigenvalue of S^2 for spin label m, that is total spin 2m - M in the units of the code *)
Definition lam (M m : nat) : R := zk M m * (zk M m + 2).

Lemma zk_S : forall M k, zk M (S k) = zk M k + 2.
Proof. intros. unfold zk. rewrite S_INR. lra. Qed.
Lemma zk_inj : forall M k m, zk M k = zk M m -> k = m.
Proof. intros M k m E. apply INR_eq. unfold zk in E. lra. Qed.
Lemma zk_lt : forall M k m, (k < m)%nat -> zk M k + 2 <= zk M m.
Proof. intros M k m H. assert (INR (S k) <= INR m) by (apply le_INR; lia). rewrite S_INR in H0. unfold zk. lra. Qed.
Lemma zk_rev : forall M k, (k <= M)%nat -> zk M (M - k) = - zk M k.
Proof. intros M k H. unfold zk. rewrite minus_INR by auto. lra. Qed.
Lemma zk_low : forall M k, (M <= 2 * k + 1)%nat -> -1 <= zk M k.
Proof.
  intros M k H. assert (E : INR M <= INR (2 * k + 1)) by (apply le_INR; lia). rewrite plus_INR, mult_INR in E. simpl in E.
  unfold zk. lra.
Qed.
Lemma lam_gap : forall M k m, (M <= 2 * k + 1)%nat -> (k < m)%nat -> 0 < lam M m - zk M k * (zk M k + 2).
Proof.
  intros M k m Hk Hm. pose proof (zk_low M k Hk). pose proof (zk_lt M k m Hm). unfold lam. nra.
Qed.
Lemma lam_inj : forall M m m', (M <= 2 * m + 1)%nat -> (M <= 2 * m' + 1)%nat -> lam M m = lam M m' -> m = m'.
Proof.
  intros M m m' H H' E. destruct (lt_eq_lt_dec m m') as [[L|L]|L]; auto; exfalso.
  - pose proof (lam_gap M m m' H L). unfold lam in *. lra.
  - pose proof (lam_gap M m' m H' L). unfold lam in *. lra.
Qed.

Section Tower.
Variables (M : nat) (d : nat -> nat) (U : nat -> nat -> nat -> R).
Local Notation z := (zk M).

Definition lowsum (k p q : nat) : R := match k with O => 0 | S k' => sumR (d k') (fun i => U k' p i * U k' q i) end.
Definition highsum (k p q : nat) : R := sumR (d (S k)) (fun i => U k i p * U k i q).
Definition tower : Prop := d (S M) = O /\
  forall k p q, (k <= M)%nat -> (p < d k)%nat -> (q < d k)%nat -> lowsum k p q - highsum k p q = 4 * z k * delta p q.
Hypothesis TW : tower.

Definition up (k : nat) (v : nat -> R) (i : nat) : R := sumR (d k) (fun q => U k i q * v q).
Definition dn (k : nat) (w : nat -> R) (q : nat) : R := sumR (d (S k)) (fun i => U k i q * w i).
(** S^2 at level k *)
Definition ssq (k : nat) (v : nat -> R) (p : nat) : R := dn k (up k v) p + z k * (z k + 2) * v p.
Definition eig (k : nat) (l : R) (v : nat -> R) : Prop := forall p, (p < d k)%nat -> ssq k v p = l * v p.

Lemma up_ext : forall k u v i, (forall q, (q < d k)%nat -> u q = v q) -> up k u i = up k v i.
Proof. intros k u v i H. apply sumR_ext. intros q Hq. now rewrite H. Qed.
Lemma dn_ext : forall k u v q, (forall i, (i < d (S k))%nat -> u i = v i) -> dn k u q = dn k v q.
Proof. intros k u v q H. apply sumR_ext. intros i Hi. now rewrite H. Qed.
Lemma up_lin : forall k a b u v i, up k (fun q => a * u q + b * v q) i = a * up k u i + b * up k v i.
Proof. intros. unfold up. rewrite <- !sumR_mul_l, <- sumR_plus. apply sumR_ext. intros. ring. Qed.
Lemma dn_lin : forall k a b u v i, dn k (fun q => a * u q + b * v q) i = a * dn k u i + b * dn k v i.
Proof. intros. unfold dn. rewrite <- !sumR_mul_l, <- sumR_plus. apply sumR_ext. intros. ring. Qed.
Lemma up_scal : forall k a u i, up k (fun q => a * u q) i = a * up k u i.
Proof. intros. unfold up. rewrite <- sumR_mul_l. apply sumR_ext. intros. ring. Qed.
Lemma dn_scal : forall k a u i, dn k (fun q => a * u q) i = a * dn k u i.
Proof. intros. unfold dn. rewrite <- sumR_mul_l. apply sumR_ext. intros. ring. Qed.
Lemma ssq_ext : forall k u v p, (p < d k)%nat -> (forall q, (q < d k)%nat -> u q = v q) -> ssq k u p = ssq k v p.
Proof.
  intros k u v p Hp H. unfold ssq. rewrite (H p) by auto. f_equal. apply dn_ext. intros. now apply up_ext.
Qed.
Lemma adjoint_ud : forall k v w, ip (d (S k)) (up k v) w = ip (d k) v (dn k w).
Proof.
  intros k v w. unfold ip, up, dn.
  rewrite (sumR_ext (d (S k)) _ (fun i => sumR (d k) (fun q => U k i q * v q * w i))) by (intros; now rewrite sumR_mul_r).
  rewrite sumR_swap. apply sumR_ext. intros q _. rewrite <- sumR_mul_l. apply sumR_ext. intros. ring.
Qed.

(** S^2 from the other product *)
Lemma up_dn : forall k w p, (S k <= M)%nat -> (p < d (S k))%nat -> up k (dn k w) p = ssq (S k) w p - z k * (z k + 2) * w p.
Proof.
  intros k w p Hk Hp. unfold up, dn.
  rewrite (sumR_ext (d k) _ (fun q => sumR (d (S k)) (fun i => U k p q * U k i q * w i))).
  2: { intros q _. rewrite <- sumR_mul_l. apply sumR_ext. intros. ring. }
  rewrite sumR_swap.
  rewrite (sumR_ext (d (S k)) _ (fun i => (highsum (S k) p i + 4 * z (S k) * delta i p) * w i)).
  - rewrite (sumR_ext (d (S k)) _ (fun i => highsum (S k) p i * w i + (if Nat.eqb i p then 1 else 0) * (4 * z (S k) * w i))).
    + rewrite sumR_plus, sumR_delta by auto. unfold ssq. rewrite zk_S.
      assert (E : sumR (d (S k)) (fun i => highsum (S k) p i * w i) = dn (S k) (up (S k) w) p).
      { unfold highsum, dn, up.
        rewrite (sumR_ext (d (S k)) _ (fun i => sumR (d (S (S k))) (fun r => U (S k) r p * U (S k) r i * w i))) by (intros; now rewrite sumR_mul_r).
        rewrite sumR_swap. apply sumR_ext. intros r _. rewrite <- sumR_mul_l. apply sumR_ext. intros. ring. }
      rewrite E. ring.
    + intros i _. unfold delta. destruct (Nat.eqb i p); ring.
  - intros i Hi. rewrite sumR_mul_r. f_equal. destruct TW as [_ C]. pose proof (C (S k) p i Hk Hp Hi) as CC. cbn [lowsum] in CC.
    unfold delta in *. rewrite (Nat.eqb_sym i p). lra.
Qed.
Lemma ssq_up : forall k v p, (S k <= M)%nat -> (p < d (S k))%nat -> ssq (S k) (up k v) p = up k (ssq k v) p.
Proof.
  intros k v p Hk Hp. pose proof (up_dn k (up k v) p Hk Hp) as E.
  assert (L : up k (ssq k v) p = up k (dn k (up k v)) p + z k * (z k + 2) * up k v p).
  { transitivity (up k (fun q => 1 * dn k (up k v) q + z k * (z k + 2) * v q) p).
    - apply up_ext. intros. unfold ssq. ring.
    - rewrite up_lin. ring. }
  rewrite L. lra.
Qed.
Lemma ssq_dn : forall k w p, (S k <= M)%nat -> ssq k (dn k w) p = dn k (ssq (S k) w) p.
Proof.
  intros k w p Hk. unfold ssq at 1.
  rewrite (dn_ext k (up k (dn k w)) (fun q => 1 * ssq (S k) w q + (- (z k * (z k + 2))) * w q)).
  - rewrite dn_lin. ring.
  - intros i Hi. rewrite up_dn by auto. ring.
Qed.
Lemma eig_up : forall k l v, (S k <= M)%nat -> eig k l v -> eig (S k) l (up k v).
Proof.
  intros k l v Hk E p Hp. rewrite ssq_up by auto. rewrite (up_ext k _ (fun q => l * v q)) by (intros; now apply E). apply up_scal.
Qed.
Lemma eig_dn : forall k l w, (S k <= M)%nat -> eig (S k) l w -> eig k l (dn k w).
Proof.
  intros k l v Hk E p Hp. rewrite ssq_dn by auto. rewrite (dn_ext k _ (fun q => l * v q)) by (intros; now apply E). apply dn_scal.
Qed.
Lemma ip_ext : forall n u u' v v', (forall i, (i < n)%nat -> u i = u' i) -> (forall i, (i < n)%nat -> v i = v' i) -> ip n u v = ip n u' v'.
Proof. intros. apply sumR_ext. intros. now rewrite H, H0. Qed.
Lemma ip_scal_l : forall n a u v, ip n (fun i => a * u i) v = a * ip n u v.
Proof. intros. unfold ip. rewrite <- sumR_mul_l. apply sumR_ext. intros. ring. Qed.
Lemma ip_scal_r : forall n a u v, ip n u (fun i => a * v i) = a * ip n u v.
Proof. intros. unfold ip. rewrite <- sumR_mul_l. apply sumR_ext. intros. ring. Qed.
Lemma ip_up : forall k l v v', eig k l v' -> ip (d (S k)) (up k v) (up k v') = (l - z k * (z k + 2)) * ip (d k) v v'.
Proof.
  intros k l v v' E. rewrite adjoint_ud. rewrite <- ip_scal_r. apply ip_ext; auto. intros i Hi.
  pose proof (E i Hi) as E'. unfold ssq in E'. lra.
Qed.
Lemma dn_zero : forall k q, dn k (fun _ => 0) q = 0.
Proof. intros. apply sumR_0. intros. ring. Qed.
Lemma up_zero : forall k q, up k (fun _ => 0) q = 0.
Proof. intros. apply sumR_0. intros. ring. Qed.

(** ** the spectrum *)
Lemma spectrum_up : forall n k l v, (M - k <= n)%nat -> (k <= M)%nat -> eig k l v -> nonzero (d k) v ->
  exists m, (k <= m <= M)%nat /\ l = lam M m.
Proof.
  induction n; intros k l v Hn Hk E (i & Hi & N).
  - assert (k = M) by lia. subst k. exists M. split; [lia|]. pose proof (E i Hi) as E'. unfold ssq in E'.
    assert (D0 : dn M (up M v) i = 0) by (unfold dn; rewrite (proj1 TW); reflexivity). rewrite D0 in E'.
    unfold lam. apply (Rmult_eq_reg_r (v i)); auto. lra.
  - destruct (nonzero_dec (d (S k)) (up k v)) as [NZ|Z].
    + assert (S k <= M)%nat.
      { destruct (Nat.le_gt_cases (S k) M); auto. exfalso. assert (k = M) by lia. subst k. destruct NZ as (j & Hj & _).
        rewrite (proj1 TW) in Hj. lia. }
      destruct (IHn (S k) l (up k v)) as (m & Hm & El); auto; [lia|apply eig_up; auto|]. exists m. split; [lia|auto].
    + exists k. split; [lia|]. pose proof (E i Hi) as E'. unfold ssq in E'.
      rewrite (dn_ext k (up k v) (fun _ => 0)) in E' by auto. rewrite dn_zero in E'.
      unfold lam. apply (Rmult_eq_reg_r (v i)); auto. lra.
Qed.
Lemma spectrum_dn : forall k l v, (k <= M)%nat -> eig k l v -> nonzero (d k) v ->
  exists m, (m <= k)%nat /\ l = zk M m * (zk M m - 2).
Proof.
  induction k; intros l v Hk E (i & Hi & N).
  - exists O. split; [lia|]. pose proof (E i Hi) as E'. unfold ssq in E'.
    assert (D : dn 0 (up 0 v) i = - (4 * z 0 * v i)).
    { unfold dn, up. rewrite (sumR_ext (d 1) _ (fun r => sumR (d 0) (fun q => U 0 r i * U 0 r q * v q))).
      2: { intros r _. rewrite <- sumR_mul_l. apply sumR_ext. intros. ring. }
      rewrite sumR_swap. rewrite (sumR_ext (d 0) _ (fun q => (if Nat.eqb q i then 1 else 0) * (- (4 * z 0) * v q))).
      - rewrite sumR_delta by auto. ring.
      - intros q Hq. rewrite sumR_mul_r. destruct TW as [_ C]. pose proof (C 0%nat i q Hk Hi Hq) as CC. cbn [lowsum] in CC.
        unfold highsum, delta in CC. rewrite (Nat.eqb_sym q i).
        replace (sumR (d 1) (fun i0 : nat => U 0 i0 i * U 0 i0 q)) with (- (4 * z 0 * (if Nat.eqb i q then 1 else 0))) by lra.
        ring. }
    rewrite D in E'. apply (Rmult_eq_reg_r (v i)); auto. lra.
  - destruct (nonzero_dec (d k) (dn k v)) as [NZ|Z].
    + destruct (IHk l (dn k v)) as (m & Hm & El); auto; [lia|apply eig_dn; auto|]. exists m. split; [lia|auto].
    + exists (S k). split; [lia|]. pose proof (E i Hi) as E'. pose proof (up_dn k v i Hk Hi) as F.
      rewrite (up_ext k (dn k v) (fun _ => 0)) in F by auto. rewrite up_zero in F. rewrite zk_S.
      apply (Rmult_eq_reg_r (v i)); auto. lra.
Qed.
Theorem spectrum : forall k l v, (k <= M)%nat -> eig k l v -> nonzero (d k) v ->
  exists m, (k <= m <= M)%nat /\ (M - k <= m)%nat /\ l = lam M m.
Proof.
  intros k l v Hk E N. destruct (spectrum_up (M - k) k l v) as (m & Hm & El); auto.
  destruct (spectrum_dn k l v) as (m' & Hm' & El'); auto. exists m. split; auto. split; auto.
  assert (Q : (z m + z m') * (z m - z m' + 2) = 0) by (unfold lam in El; nra).
  apply Rmult_integral in Q. destruct Q as [Q|Q].
  - assert (m = (M - m')%nat) by (apply (zk_inj M); rewrite zk_rev by lia; lra). lia.
  - exfalso. assert (z m' <= z m).
    { unfold zk. assert (INR m' <= INR m) by (apply le_INR; lia). lra. }
    lra.
Qed.

(** ** normalised ladder *)
Definition fct (l : R) (k : nat) : R := sqrt (l - z k * (z k + 2)).
Definition rung (k : nat) (l : R) (v : nat -> R) : nat -> R := fun p => up k v p / fct l k.
Fixpoint chain (a : nat) (l : R) (v : nat -> R) (i : nat) : nat -> R :=
  match i with O => v | S i' => rung (a + i') l (chain a l v i') end.

Lemma fct_sq : forall k m, (M <= 2 * k + 1)%nat -> (k < m)%nat ->
  fct (lam M m) k * fct (lam M m) k = lam M m - z k * (z k + 2) /\ fct (lam M m) k <> 0.
Proof.
  intros k m Hk Hm. pose proof (lam_gap M k m Hk Hm) as G. unfold fct.
  assert (E : sqrt (lam M m - z k * (z k + 2)) * sqrt (lam M m - z k * (z k + 2)) = lam M m - z k * (z k + 2)) by (apply sqrt_sqrt; lra).
  split; auto. intros Z. rewrite Z in E. lra.
Qed.

Section Ladder.
Variables (a : nat) (v : nat -> nat -> R) (m : nat -> nat).
Hypothesis Ha : (a <= M)%nat.
Hypothesis Hlow : (M <= 2 * a + 1)%nat.
Hypothesis Hm : forall j, (j < d a)%nat -> (a <= m j <= M)%nat.
Hypothesis ON : orthonormal (d a) (d a) v.
Hypothesis EV : forall j, (j < d a)%nat -> eig a (lam M (m j)) (v j).
Local Notation ch j i := (chain a (lam M (m j)) (v j) i).

Lemma rung_eig : forall k l u, (S k <= M)%nat -> eig k l u -> eig (S k) l (rung k l u).
Proof.
  intros k l u Hk E p Hp. unfold rung.
  rewrite (ssq_ext (S k) _ (fun q => / fct l k * up k u q)) by (auto; intros; unfold Rdiv; ring).
  pose proof (eig_up k l u Hk E p Hp) as F. unfold ssq in *. rewrite (dn_ext _ _ (fun q => / fct l k * up (S k) (up k u) q)) by (intros; apply up_scal).
  rewrite dn_scal. unfold Rdiv. transitivity (/ fct l k * (dn (S k) (up (S k) (up k u)) p + z (S k) * (z (S k) + 2) * up k u p)); [ring|].
  rewrite F. ring.
Qed.
Lemma chain_eig : forall i j, (a + i <= M)%nat -> (j < d a)%nat -> eig (a + i) (lam M (m j)) (ch j i).
Proof.
  induction i; intros j Hi Hj; simpl.
  - rewrite Nat.add_0_r. apply EV. auto.
  - rewrite Nat.add_succ_r. apply rung_eig; [lia|]. apply IHi; auto. lia.
Qed.
Lemma chain_ortho : forall i j j', (a + i <= M)%nat -> (j < d a)%nat -> (j' < d a)%nat -> (a + i <= m j)%nat -> (a + i <= m j')%nat ->
  ip (d (a + i)) (ch j i) (ch j' i) = delta j j'.
Proof.
  induction i; intros j j' Hi Hj Hj' Mj Mj'; simpl.
  - rewrite Nat.add_0_r. apply ON; auto.
  - rewrite Nat.add_succ_r. unfold rung.
    destruct (fct_sq (a + i) (m j)) as [F1 N1]; [lia|lia|]. destruct (fct_sq (a + i) (m j')) as [F2 N2]; [lia|lia|].
    rewrite (ip_ext _ _ (fun p => / fct (lam M (m j)) (a + i) * up (a + i) (ch j i) p) _ (fun p => / fct (lam M (m j')) (a + i) * up (a + i) (ch j' i) p))
      by (intros; unfold Rdiv; ring).
    rewrite ip_scal_l, ip_scal_r.
    rewrite (ip_up _ (lam M (m j'))) by (apply chain_eig; auto; lia).
    rewrite IHi by (auto; lia). rewrite <- F2. unfold delta. destruct (Nat.eqb_spec j j') as [<-|].
    + field. auto.
    + ring.
Qed.

(** unnormalised: raising i times *)
Fixpoint ups (i : nat) (u : nat -> R) : nat -> R := match i with O => u | S i' => up (a + i') (ups i' u) end.
Fixpoint dns (i : nat) (u : nat -> R) : nat -> R := match i with O => u | S i' => dns i' (dn (a + i') u) end.
Lemma ups_dns : forall i u w, ip (d (a + i)) (ups i u) w = ip (d a) u (dns i w).
Proof.
  induction i; intros u w; simpl.
  - now rewrite Nat.add_0_r.
  - rewrite Nat.add_succ_r, adjoint_ud. apply IHi.
Qed.
Lemma ups_chain : forall i j, (a + i <= M)%nat -> (j < d a)%nat -> (a + i <= m j)%nat ->
  exists c, forall p, (p < d (a + i))%nat -> ups i (v j) p = c * ch j i p.
Proof.
  induction i; intros j Hi Hj Mj; simpl.
  - exists 1. intros. ring.
  - destruct (IHi j) as (c & E); [lia|auto|lia|]. destruct (fct_sq (a + i) (m j)) as [_ N]; [lia|lia|].
    exists (c * fct (lam M (m j)) (a + i)). intros p Hp. unfold rung. rewrite (up_ext _ _ (fun q => c * ch j i q)) by auto.
    rewrite up_scal. field. auto.
Qed.
Lemma ups_over : forall i j, (a + i <= M)%nat -> (j < d a)%nat -> (m j < a + i)%nat ->
  forall p, (p < d (a + i))%nat -> ups i (v j) p = 0.
Proof.
  assert (UE : forall i j, (a + i <= M)%nat -> (j < d a)%nat -> eig (a + i) (lam M (m j)) (ups i (v j))).
  { induction i; intros j Hi Hj; simpl; [rewrite Nat.add_0_r; apply EV; auto|].
    rewrite Nat.add_succ_r. apply eig_up; [lia|]. apply IHi; auto. lia. }
  induction i; intros j Hi Hj Mj p Hp; [destruct (Hm j Hj); lia|]. rewrite Nat.add_succ_r in Hp. cbn [ups].
  destruct (Nat.lt_ge_cases (m j) (a + i)) as [L|L].
  - rewrite (up_ext _ _ (fun _ => 0)).
    + apply up_zero.
    + intros q Hq. apply IHi; auto. lia.
  - assert (Em : m j = (a + i)%nat) by lia.
    apply (ip_zero (d (S (a + i)))); auto. rewrite (ip_up _ (lam M (m j))) by (apply UE; auto; lia). rewrite Em. unfold lam. ring.
Qed.
(** lowering is injective above the middle *)
Lemma dn_inj : forall k w, (a <= k)%nat -> (S k <= M)%nat -> nonzero (d (S k)) w -> nonzero (d k) (dn k w).
Proof.
  intros k w Hk HkM NZ. destruct (nonzero_dec (d k) (dn k w)) as [|Z]; auto. exfalso.
  assert (S2 : forall p, (p < d (S k))%nat -> ssq (S k) w p = z k * (z k + 2) * w p).
  { intros p Hp. pose proof (up_dn k w p HkM Hp) as F. rewrite (up_ext k (dn k w) (fun _ => 0)) in F by auto. rewrite up_zero in F. lra. }
  assert (P : ip (d (S k)) w (ssq (S k) w) = ip (d (S (S k))) (up (S k) w) (up (S k) w) + z (S k) * (z (S k) + 2) * ip (d (S k)) w w).
  { rewrite adjoint_ud. rewrite <- ip_scal_r. unfold ip. rewrite <- sumR_plus. apply sumR_ext. intros. unfold ssq. ring. }
  rewrite (ip_ext _ w w (ssq (S k) w) (fun p => z k * (z k + 2) * w p)) in P by auto. rewrite ip_scal_r in P.
  pose proof (ip_self (d (S (S k))) (up (S k) w)) as P1. pose proof (ip_self (d (S k)) w) as P2.
  assert (P3 : ip (d (S k)) w w <> 0).
  { intros E. destruct NZ as (i & Hi & N). apply N. eapply ip_zero; eauto. }
  rewrite zk_S in P. pose proof (zk_low M k ltac:(lia)). assert (0 < ip (d (S k)) w w) by lra. nra.
Qed.
Lemma dns_inj : forall i w, (a + i <= M)%nat -> nonzero (d (a + i)) w -> nonzero (d a) (dns i w).
Proof.
  induction i; intros w Hi NZ; simpl; [now rewrite Nat.add_0_r in NZ|].
  rewrite Nat.add_succ_r in NZ. apply IHi; [lia|]. apply dn_inj; auto; lia.
Qed.

Definition alive (k : nat) : list nat := filter (fun j => Nat.leb k (m j)) (seq 0 (d a)).
Lemma alive_in : forall k j, In j (alive k) <-> (j < d a /\ k <= m j)%nat.
Proof. intros. unfold alive. rewrite filter_In, in_seq, Nat.leb_le. lia. Qed.
Lemma alive_nodup : forall k, NoDup (alive k).
Proof. intros. apply NoDup_filter, seq_NoDup. Qed.

(** the multiplets that reach level a+i give an orthonormal basis there *)
Theorem ladder_basis : forall i, (a + i <= M)%nat ->
  length (alive (a + i)) = d (a + i) /\ orthonormal (d (a + i)) (d (a + i)) (fun t => ch (nth t (alive (a + i)) O) i).
Proof.
  intros i Hi. set (L := alive (a + i)).
  assert (O1 : orthonormal (d (a + i)) (length L) (fun t => ch (nth t L O) i)).
  { intros t t' Ht Ht'. assert (A : In (nth t L O) L) by (apply nth_In; auto). assert (B : In (nth t' L O) L) by (apply nth_In; auto).
    apply alive_in in A, B. rewrite chain_ortho by (auto; lia). unfold delta.
    destruct (Nat.eqb_spec t t') as [->|Hne]; [now rewrite Nat.eqb_refl|].
    rewrite (proj2 (Nat.eqb_neq _ _)); auto. intros E. apply Hne. apply (proj1 (NoDup_nth L O) (alive_nodup (a + i)) t t'); auto. }
  pose proof (orthonormal_le _ _ _ O1) as LE.
  assert (GE : (d (a + i) <= length L)%nat).
  { destruct (Nat.le_gt_cases (d (a + i)) (length L)) as [|LT]; auto. exfalso.
    destruct (hom_system _ _ (fun t => ch (nth t L O) i) LT) as (u & NZ & OR).
    pose proof (dns_inj i u Hi NZ) as (p & Hp & N). apply N.
    apply (complete_zero (d a) v (dns i u) ON); auto. intros j Hj. rewrite <- ups_dns.
    destruct (Nat.le_gt_cases (a + i) (m j)) as [ML|MG].
    - destruct (ups_chain i j Hi Hj ML) as (c & E). rewrite (ip_ext _ _ (fun p => c * ch j i p) u u) by auto.
      rewrite ip_scal_l. assert (A : In j L) by (apply alive_in; auto). apply (In_nth L j O) in A. destruct A as (t & Ht & Et).
      specialize (OR t Ht). rewrite Et in OR. unfold ip. rewrite OR. ring.
    - rewrite (ip_ext _ _ (fun _ => 0) u u); auto.
      + unfold ip. apply sumR_0. intros. ring.
      + intros q Hq. apply ups_over; auto. }
  assert (EL : length L = d (a + i)) by lia. split; auto. now rewrite <- EL at 2.
Qed.
End Ladder.

(** ** arbitrary vectors *)
Lemma ssq_sym : forall k u v, ip (d k) u (ssq k v) = ip (d k) (ssq k u) v.
Proof.
  intros k u v.
  assert (A : forall u v, ip (d k) u (ssq k v) = ip (d (S k)) (up k u) (up k v) + z k * (z k + 2) * ip (d k) u v).
  { intros u0 v0. rewrite adjoint_ud. rewrite <- ip_scal_r. unfold ip. rewrite <- sumR_plus. apply sumR_ext. intros. unfold ssq. ring. }
  rewrite A. rewrite (ip_sym (d k) (ssq k u) v), A. now rewrite (ip_sym (d (S k)) (up k v)), (ip_sym (d k) v u).
Qed.
Lemma eig_ortho : forall k l l' u v, eig k l u -> eig k l' v -> l <> l' -> ip (d k) u v = 0.
Proof.
  intros k l l' u v E E' N. pose proof (ssq_sym k u v) as S0.
  rewrite (ip_ext _ u u (ssq k v) (fun p => l' * v p)) in S0 by auto. rewrite (ip_ext _ (ssq k u) (fun p => l * u p) v v) in S0 by auto.
  rewrite ip_scal_r, ip_scal_l in S0. assert (Q : (l' - l) * ip (d k) u v = 0) by lra. apply Rmult_integral in Q. destruct Q; auto. lra.
Qed.
Lemma chain_eig_any : forall a i l u, (a + i <= M)%nat -> eig a l u -> eig (a + i) l (chain a l u i).
Proof.
  induction i; intros l u Hi E; simpl.
  - now rewrite Nat.add_0_r.
  - rewrite Nat.add_succ_r. apply rung_eig; [lia|]. apply IHi; auto. lia.
Qed.
Lemma chain_ip : forall a i m u v, (M <= 2 * a + 1)%nat -> (a + i <= m)%nat -> (m <= M)%nat -> eig a (lam M m) u -> eig a (lam M m) v ->
  ip (d (a + i)) (chain a (lam M m) u i) (chain a (lam M m) v i) = ip (d a) u v.
Proof.
  induction i; intros m u v Ha Hm HM Eu E'; simpl.
  - now rewrite Nat.add_0_r.
  - rewrite Nat.add_succ_r. unfold rung. destruct (fct_sq (a + i) m) as [F1 N1]; [lia|lia|].
    rewrite (ip_ext _ _ (fun p => / fct (lam M m) (a + i) * up (a + i) (chain a (lam M m) u i) p)
                      _ (fun p => / fct (lam M m) (a + i) * up (a + i) (chain a (lam M m) v i) p))
      by (intros; unfold Rdiv; ring).
    rewrite ip_scal_l, ip_scal_r. rewrite (ip_up _ (lam M m)) by (apply chain_eig_any; auto; lia).
    rewrite IHi by (auto; lia). rewrite <- F1. field. auto.
Qed.
End Tower.

(** ** reading the ladder downwards *)
Section Reverse.
Variables (M : nat) (d : nat -> nat) (U : nat -> nat -> nat -> R).
Hypothesis TW : tower M d U.
Definition drev (k : nat) : nat := if Nat.leb k M then d (M - k) else O.
Definition Urev (k i q : nat) : R := U (M - 1 - k) q i.
Lemma tower_rev : tower M drev Urev.
Proof.
  destruct TW as [T0 C]. split.
  - unfold drev. now rewrite (proj2 (Nat.leb_gt (S M) M)) by lia.
  - intros k p q Hk Hp Hq.
    assert (Dk : drev k = d (M - k)) by (unfold drev; now rewrite (proj2 (Nat.leb_le k M)) by lia).
    rewrite Dk in Hp, Hq. pose proof (C (M - k)%nat p q ltac:(lia) Hp Hq) as CC. rewrite zk_rev in CC by auto.
    assert (A : lowsum drev Urev k p q = highsum d U (M - k) p q).
    { destruct k as [|k'].
      - cbn [lowsum]. unfold highsum. rewrite Nat.sub_0_r, T0. reflexivity.
      - cbn [lowsum]. unfold highsum, Urev, drev. rewrite (proj2 (Nat.leb_le k' M)) by lia.
        replace (S (M - S k')) with (M - k')%nat by lia. replace (M - 1 - k')%nat with (M - S k')%nat by lia. reflexivity. }
    assert (B : highsum drev Urev k p q = lowsum d U (M - k) p q).
    { unfold highsum, Urev, drev. destruct (Nat.leb_spec (S k) M) as [L|L].
      - replace (M - k)%nat with (S (M - S k)) by lia. cbn [lowsum].
        replace (M - 1 - k)%nat with (M - S k)%nat by lia. reflexivity.
      - replace (M - k)%nat with O by lia. reflexivity. }
    rewrite A, B. lra.
Qed.
Lemma up_rev : forall k v i, (k < M)%nat -> up drev Urev k v i = dn d U (M - 1 - k) v i.
Proof.
  intros k v i Hk. unfold up, dn, Urev, drev. rewrite (proj2 (Nat.leb_le k M)) by lia.
  replace (S (M - 1 - k)) with (M - k)%nat by lia. reflexivity.
Qed.
Lemma ssq_rev : forall k v p, (k <= M)%nat -> (p < d (M - k))%nat -> ssq M drev Urev k v p = ssq M d U (M - k) v p.
Proof.
  intros k v p Hk Hp. unfold ssq at 1. rewrite <- (Rplus_0_r (ssq M d U (M - k) v p)).
  assert (Z : zk M k = - zk M (M - k)) by (rewrite zk_rev by auto; lra). rewrite Z.
  destruct (Nat.eq_dec k M) as [->|Hne].
  - unfold dn. assert (D0 : drev (S M) = O) by (unfold drev; now rewrite (proj2 (Nat.leb_gt (S M) M)) by lia). rewrite D0.
    cbn [sumR]. rewrite Nat.sub_diag in *.
    assert (Q : dn d U 0 (up d U 0 v) p = - (4 * zk M 0) * v p).
    { unfold dn, up. rewrite (sumR_ext (d 1%nat) _ (fun r => sumR (d 0%nat) (fun q => U 0%nat r p * U 0%nat r q * v q))).
      2: { intros r _. rewrite <- sumR_mul_l. apply sumR_ext. intros. ring. }
      rewrite sumR_swap. rewrite (sumR_ext (d 0%nat) _ (fun q => (if Nat.eqb q p then 1 else 0) * (- (4 * zk M 0) * v q))).
      - rewrite sumR_delta by auto. ring.
      - intros q Hq. rewrite sumR_mul_r. destruct TW as [_ C]. pose proof (C 0%nat p q ltac:(lia) Hp Hq) as CC. cbn [lowsum] in CC.
        unfold highsum, delta in CC. rewrite (Nat.eqb_sym q p).
        replace (sumR (d 1%nat) (fun i0 : nat => U 0%nat i0 p * U 0%nat i0 q)) with (- (4 * zk M 0 * (if Nat.eqb p q then 1 else 0))) by lra.
        ring. }
    unfold ssq. rewrite Q. ring.
  - assert (E : dn drev Urev k (up drev Urev k v) p = up d U (M - S k) (dn d U (M - S k) v) p).
    { unfold dn at 1, up at 2. unfold drev at 1. rewrite (proj2 (Nat.leb_le (S k) M)) by lia. apply sumR_ext. intros i Hi.
      rewrite up_rev by lia. unfold Urev. replace (M - 1 - k)%nat with (M - S k)%nat by lia. reflexivity. }
    rewrite E. rewrite (up_dn M d U TW (M - S k) v p) by (replace (S (M - S k)) with (M - k)%nat by lia; auto; lia).
    replace (S (M - S k)) with (M - k)%nat by lia.
    assert (Z2 : zk M (M - k) = zk M (M - S k) + 2) by (replace (M - k)%nat with (S (M - S k)) by lia; apply zk_S).
    rewrite Z2. ring.
Qed.
End Reverse.

(** a spin 1/2: two levels with one state each, 2 S^+ = 2 *)
Example tower_case : tower 1 (fun k => if Nat.leb k 1 then 1%nat else O) (fun _ _ _ => 2).
Proof.
  split; [reflexivity|]. intros k p q Hk Hp Hq. destruct k as [|[|k]]; [| |lia]; cbn in *;
  assert (p = O) by lia; assert (q = O) by lia; subst; unfold zk, delta; cbn; lra.
Qed.
