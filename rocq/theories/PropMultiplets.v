(** C53: the spin multiplets built by construct_manybody_eigenstates_ssq_all *)
From Coq Require Import String ZArith List Arith Lia Bool Reals Lra.
From Verif Require Import Base Bits Indexing IndexingProofs RemoveProofs Binom SsqProofs Qn PropIndexing CRing Fock Operators OperatorsProofs
  PropOperators PropRotate SpinFock SpinOps PropSpinOps LinR Tower Multiplets MultipletsExec MultipletsSpin MultipletsProofs.
Import ListNotations.
Open Scope nat_scope.
Local Notation length := List.length.
Local Notation C := (Cx RRing).
Add Ring Cmul : (rth (Cx RRing)).

Lemma rC_mul : forall x y, rC (x * y)%R = rmul (rC x) (rC y).
Proof. intros. apply C_eq; [rewrite re_rC_mul; reflexivity|rewrite im_rC_mul; unfold rC, ofR; cbn; ring]. Qed.
Lemma rC_0 : rC 0 = r0. Proof. reflexivity. Qed.
Lemma rC_1 : rC 1 = r1. Proof. reflexivity. Qed.
Lemma rC_sum : forall f n, rC (sumR n f) = rsum (fun i => rC (f i)) (seq 0 n).
Proof.
  intros. apply C_eq.
  - rewrite re_rsum. reflexivity.
  - rewrite im_rsum. symmetry. apply (sumR_0 n (fun i => im (rC (f i)))). reflexivity.
Qed.
Lemma rC_conj : forall x, conj (rC x) = rC x.
Proof. intros. apply C_eq; unfold rC, ofR, conj; cbn; auto. apply Ropp_0. Qed.
Lemma csum_delta : forall n k (f : nat -> C), k < n -> rsum (fun i => rmul (rC (delta i k)) (f i)) (seq 0 n) = f k.
Proof.
  intros n k f Hk. rewrite (rsum_single (Cx RRing) nat _ _ k); [|apply seq_NoDup|apply in_seq; lia|].
  - unfold delta. rewrite Nat.eqb_refl, rC_1. ring.
  - intros y _ N. unfold delta. apply Nat.eqb_neq in N. rewrite N, rC_0. ring.
Qed.
Local Notation rsum_ext := (rsum_ext (Cx RRing) nat).
Local Notation rsum_swap := (rsum_swap (Cx RRing) nat nat).
Local Notation rsum_mul_l := (rsum_mul_l (Cx RRing) nat).
Local Notation rsum_mul_r := (rsum_mul_r (Cx RRing) nat).
Local Notation rsum_plus := (rsum_plus (Cx RRing) nat).

(** an orthonormal set of real columns times a unitary matrix *)
Lemma cip_expand : forall d w V W j j', (forall t t', t < w -> t' < w -> sumR d (fun p => (V p t * V p t')%R) = delta t t') ->
  cip d (fun p => expand w V W p j) (fun p => expand w V W p j') = rsum (fun t => rmul (conj (W t j)) (W t j')) (seq 0 w).
Proof.
  intros d w V W j j' O. unfold cip, expand.
  rewrite (rsum_ext _ (fun p => rsum (fun t => rsum (fun t' => rmul (rC (V p t' * V p t)) (rmul (conj (W t j)) (W t' j'))) (seq 0 w)) (seq 0 w))).
  2: { intros p _. rewrite rsum_conj, <- rsum_mul_r. apply rsum_ext. intros t _. rewrite <- rsum_mul_l. apply rsum_ext. intros t' _.
       rewrite conj_mul, rC_conj, rC_mul. ring. }
  rewrite rsum_swap. apply rsum_ext. intros t Ht. apply in_seq in Ht. rewrite rsum_swap.
  rewrite (rsum_ext _ (fun t' => rmul (rC (delta t' t)) (rmul (conj (W t j)) (W t' j')))).
  - apply (csum_delta w t (fun t' => rmul (conj (W t j)) (W t' j'))). lia.
  - intros t' Ht'. apply in_seq in Ht'. rewrite rsum_mul_r. f_equal. rewrite <- rC_sum. f_equal. apply O; lia.
Qed.

Definition hermitian (d : nat) (A : nat -> nat -> C) : Prop := forall p q, p < d -> q < d -> A p q = conj (A q p).
Lemma project_hermitian : forall d w H V, hermitian d H -> hermitian w (project d H V).
Proof.
  intros d w H V HH i j _ _. unfold project. rewrite rsum_conj.
  rewrite (rsum_ext _ (fun p => rsum (fun q => rmul (rC (V p i)) (rmul (H p q) (rC (V q j)))) (seq 0 d))) by (intros; symmetry; apply rsum_mul_l).
  rewrite rsum_swap. apply rsum_ext. intros q Hq. apply in_seq in Hq. rewrite conj_mul, rC_conj, rsum_conj, <- rsum_mul_l. apply rsum_ext.
  intros p Hp. apply in_seq in Hp. rewrite conj_mul, rC_conj, <- (HH p q) by lia. ring.
Qed.

(** the cell of valslst, vecslst that the callers read for (sz, ssq) *)
Definition cell_of (s : store) (c n : nat) (sz ssq : Z) : option cell := sget s (sz_to_ind sz c n) (ssq_to_ind ssq sz).
Definition szlow (c : nat) : Z := (- (Z.of_nat c mod 2))%Z.
(** numpy's eigh is right about the matrix of S^2 and about the projected Hamiltonians it is given *)
Definition eigh_right (c : nat) (si : SI) (ham : nat -> nat -> C)
    (eigh_real : nat -> (nat -> nat -> R) -> (nat -> R) * (nat -> nat -> R))
    (eigh_cplx : nat -> (nat -> nat -> C) -> (nat -> R) * (nat -> nat -> C)) : Prop :=
  (forall d m, operator_ssquare c (szlow c) si = Some (SMat d d m) -> (forall p q, p < d -> q < d -> m p q = m q p) ->
     eigh_real_ok d (fun p q => IZR (m p q)) (eigh_real d (fun p q => IZR (m p q)))) /\
  (forall L V, ssquare_eigenstates eigh_real c (szlow c) si = Some L -> In (Some V) L ->
     let hamp := project (ra_rows V) ham (ra_at V) in
     hermitian (ra_cols V) hamp -> eigh_cplx_ok (ra_cols V) hamp (eigh_cplx (ra_cols V) hamp)).

Section Theorems.
Variables (n : nat) (indexing : string) (si : SI) (c : nat).
Hypothesis SI0 : spin_indexing n indexing si.
Hypothesis Hc : c <= n.
Let M := smax n c.
Let a := low_level n c.
Local Notation dd := (dd n si c).
Local Notation Uu := (Uu n si c).
Variable eigh_real : nat -> (nat -> nat -> R) -> (nat -> R) * (nat -> nat -> R).
Variable eigh_cplx : nat -> (nat -> nat -> C) -> (nat -> R) * (nat -> nat -> C).
Variable ham : nat -> nat -> C.
Variable S2 : nat -> nat -> Z.
Hypothesis SQ : operator_ssquare c (zZ M a) si = Some (SMat (dd a) (dd a) S2).
Hypothesis SAPP : forall p v, p < dd a -> sumR (dd a) (fun q => (IZR (S2 p q) * v q)%R) = ssq M dd Uu a v p.
Hypothesis ROK : eigh_real_ok (dd a) (fun p q => IZR (S2 p q)) (eigh_real (dd a) (fun p q => IZR (S2 p q))).
Local Notation width := (width n si c eigh_real S2).
Local Notation VV := (VV n si c eigh_real S2).
Local Notation EC := (EC n si c eigh_real eigh_cplx ham S2).
Local Notation start := (start n si c eigh_real eigh_cplx ham S2).
Local Notation EE := (EE n si c eigh_real eigh_cplx ham S2).
Hypothesis COK : forall m, lo M a <= m <= M -> eigh_cplx_ok (width m) (project (dd a) ham (ra_at (VV m))) (EC m).

Lemma lev_in : forall k, k <= M -> In (zZ M k) (szrange c n). Proof. exact (level_in n c Hc). Qed.
Lemma lo_lo : forall k m, k <= M -> lo M k <= m -> lo M a <= m.
Proof. intros k m Hk Hm. pose proof (low_twice n c Hc) as T. fold M a in T. unfold lo in *. destruct T; lia. Qed.

Lemma start_on : forall m j j', lo M a <= m <= M -> j < width m -> j' < width m ->
  cip (dd a) (fun p => cl_vec (start m) p j) (fun p => cl_vec (start m) p j') = if j =? j' then r1 else r0.
Proof.
  intros m j j' Hm Hj Hj'. destruct (COK m Hm) as (_ & O & _).
  pose proof (cip_expand (dd a) (width m) (ra_at (VV m)) (snd (EC m)) j j'
    (fun t t' Ht Ht' => VV_on n indexing si c SI0 Hc eigh_real S2 SAPP ROK m t t' Hm Ht Ht')) as Q.
  etransitivity; [exact Q|]. apply O; auto.
Qed.
Lemma level_on : forall k m m' j j', k <= M -> lo M k <= m <= M -> lo M k <= m' <= M -> j < width m -> j' < width m' ->
  cip (dd k) (fun p => cl_vec (EE k m) p j) (fun p => cl_vec (EE k m') p j') = if (m =? m') && (j =? j') then r1 else r0.
Proof.
  intros k m m' j j' Hk Hm Hm' Hj Hj'.
  pose proof (cell_spec n indexing si c SI0 Hc eigh_real eigh_cplx ham S2 SAPP ROK k m Hk Hm) as CS. cbv zeta in CS.
  destruct (Nat.eqb_spec m m') as [<-|N]; cbn [andb].
  - destruct CS as (_ & _ & _ & _ & IP).
    rewrite <- (start_on m j j') by (auto; pose proof (lo_lo k m Hk); lia). apply C_eq.
    + rewrite !cip_re. unfold rev, imv. f_equal; [exact (IP true true j j')|exact (IP false false j j')].
    + rewrite !cip_im. unfold rev, imv. f_equal; [exact (IP true false j j')|exact (IP false true j j')].
  - pose proof (cell_spec n indexing si c SI0 Hc eigh_real eigh_cplx ham S2 SAPP ROK k m' Hk Hm') as CS'. cbv zeta in CS'.
    destruct CS as (_ & _ & _ & EG & _), CS' as (_ & _ & _ & EG' & _). destruct (EG j) as [E1 E2], (EG' j') as [F1 F2].
    assert (NL : lam M m <> lam M m').
    { intros Q. apply N. apply (lam_inj M); auto; unfold lo in *; fold M in Hm, Hm'; lia. }
    apply C_eq.
    + rewrite cip_re. unfold rev, imv. rewrite (eig_ortho M dd Uu k _ _ _ _ E1 F1 NL), (eig_ortho M dd Uu k _ _ _ _ E2 F2 NL). exact (Rplus_0_r 0).
    + rewrite cip_im. unfold rev, imv. rewrite (eig_ortho M dd Uu k _ _ _ _ E1 F2 NL), (eig_ortho M dd Uu k _ _ _ _ E2 F1 NL). exact (Rminus_0_r 0).
Qed.
Lemma level_ssq : forall k m S2k p j, k <= M -> lo M k <= m <= M -> operator_ssquare c (zZ M k) si = Some (SMat (dd k) (dd k) S2k) -> p < dd k ->
  rsum (fun q => rmul (rC (IZR (S2k p q))) (cl_vec (EE k m) q j)) (seq 0 (dd k)) = rmul (rC (IZR (zZ M m * (zZ M m + 2)))) (cl_vec (EE k m) p j).
Proof.
  intros k m S2k p j Hk Hm ES Hp.
  destruct (ssq_form n indexing si c SI0 Hc k Hk) as (m2 & E2 & _ & AP). fold M in E2. rewrite ES in E2. injection E2 as <-.
  pose proof (cell_spec n indexing si c SI0 Hc eigh_real eigh_cplx ham S2 SAPP ROK k m Hk Hm) as CS. cbv zeta in CS.
  destruct CS as (_ & _ & _ & EG & _). destruct (EG j) as [E1 E3].
  assert (L : IZR (zZ M m * (zZ M m + 2)) = lam M m) by (unfold lam; rewrite mult_IZR, plus_IZR, zZ_zk; reflexivity).
  rewrite L. apply C_eq.
  - rewrite re_rsum, re_rC_mul. etransitivity; [|exact (E1 p Hp)]. etransitivity; [|exact (AP p _ Hp)]. apply sumR_ext. intros. apply re_rC_mul.
  - rewrite im_rsum, im_rC_mul. etransitivity; [|exact (E3 p Hp)]. etransitivity; [|exact (AP p _ Hp)]. apply sumR_ext. intros. apply im_rC_mul.
Qed.

(** ** a Hamiltonian that commutes with the spin operators *)
Variable HH : nat -> nat -> nat -> C.
Hypothesis HHam : forall p q, HH a p q = ham p q.
Hypothesis HHerm : forall k, k <= M -> hermitian (dd k) (HH k).
Hypothesis HCom : forall k p q, S k <= M -> p < dd (S k) -> q < dd k ->
  rsum (fun i => rmul (HH (S k) p i) (rC (Uu k i q))) (seq 0 (dd (S k))) = rsum (fun i => rmul (rC (Uu k p i)) (HH k i q)) (seq 0 (dd k)).
Definition chom (k : nat) (x : nat -> C) (p : nat) : C := rsum (fun q => rmul (HH k p q) (x q)) (seq 0 (dd k)).
Definition cup (k : nat) (x : nat -> C) (p : nat) : C := rsum (fun q => rmul (rC (Uu k p q)) (x q)) (seq 0 (dd k)).
Definition cdn (k : nat) (y : nat -> C) (q : nat) : C := rsum (fun p => rmul (rC (Uu k p q)) (y p)) (seq 0 (dd (S k))).
Definition cssq (k : nat) (x : nat -> C) (p : nat) : C := radd (cdn k (cup k x) p) (rmul (rC (zk M k * (zk M k + 2))) (x p)).

Lemma chom_ext : forall k x y p, (forall q, q < dd k -> x q = y q) -> chom k x p = chom k y p.
Proof. intros. apply rsum_ext. intros q Hq. apply in_seq in Hq. now rewrite H by lia. Qed.
Lemma cup_ext : forall k x y p, (forall q, q < dd k -> x q = y q) -> cup k x p = cup k y p.
Proof. intros. apply rsum_ext. intros q Hq. apply in_seq in Hq. now rewrite H by lia. Qed.
Lemma cdn_ext : forall k x y p, (forall q, q < dd (S k) -> x q = y q) -> cdn k x p = cdn k y p.
Proof. intros. apply rsum_ext. intros q Hq. apply in_seq in Hq. now rewrite H by lia. Qed.
Lemma chom_scal : forall k z x p, chom k (fun q => rmul z (x q)) p = rmul z (chom k x p).
Proof. intros. unfold chom. rewrite <- rsum_mul_l. apply rsum_ext. intros. ring. Qed.
Lemma cup_scal : forall k z x p, cup k (fun q => rmul z (x q)) p = rmul z (cup k x p).
Proof. intros. unfold cup. rewrite <- rsum_mul_l. apply rsum_ext. intros. ring. Qed.
Lemma cdn_scal : forall k z x p, cdn k (fun q => rmul z (x q)) p = rmul z (cdn k x p).
Proof. intros. unfold cdn. rewrite <- rsum_mul_l. apply rsum_ext. intros. ring. Qed.
Lemma chom_plus : forall k x y p, chom k (fun q => radd (x q) (y q)) p = radd (chom k x p) (chom k y p).
Proof. intros. unfold chom. rewrite <- rsum_plus. apply rsum_ext. intros. ring. Qed.

Lemma H_up : forall k x p, S k <= M -> p < dd (S k) -> chom (S k) (cup k x) p = cup k (chom k x) p.
Proof.
  intros k x p Hk Hp. unfold chom, cup.
  rewrite (rsum_ext _ (fun i => rsum (fun q => rmul (rmul (HH (S k) p i) (rC (Uu k i q))) (x q)) (seq 0 (dd k)))).
  2: { intros i _. rewrite <- rsum_mul_l. apply rsum_ext. intros. ring. }
  rewrite rsum_swap.
  rewrite (rsum_ext _ (fun q => rsum (fun i => rmul (rmul (rC (Uu k p i)) (HH k i q)) (x q)) (seq 0 (dd k)))).
  2: { intros q Hq. apply in_seq in Hq. rewrite !rsum_mul_r. rewrite HCom by (auto; lia). reflexivity. }
  rewrite rsum_swap. apply rsum_ext. intros i _. rewrite <- rsum_mul_l. apply rsum_ext. intros. ring.
Qed.
Lemma HCom_dn : forall k p q, S k <= M -> p < dd (S k) -> q < dd k ->
  rsum (fun i => rmul (rC (Uu k i q)) (HH (S k) i p)) (seq 0 (dd (S k))) = rsum (fun i => rmul (HH k q i) (rC (Uu k p i))) (seq 0 (dd k)).
Proof.
  intros k p q Hk Hp Hq. pose proof (f_equal conj (HCom k p q Hk Hp Hq)) as E. rewrite !rsum_conj in E.
  transitivity (rsum (fun i => conj (rmul (HH (S k) p i) (rC (Uu k i q)))) (seq 0 (dd (S k)))).
  - apply rsum_ext. intros i Hi. apply in_seq in Hi. rewrite conj_mul, rC_conj. rewrite (HHerm (S k) Hk i p) by lia. ring.
  - rewrite E. apply rsum_ext. intros i Hi. apply in_seq in Hi. rewrite conj_mul, rC_conj. rewrite (HHerm k ltac:(lia) q i) by lia. ring.
Qed.
Lemma H_dn : forall k y q, S k <= M -> q < dd k -> chom k (cdn k y) q = cdn k (chom (S k) y) q.
Proof.
  intros k y q Hk Hq. unfold chom, cdn.
  rewrite (rsum_ext _ (fun i => rsum (fun p => rmul (rmul (HH k q i) (rC (Uu k p i))) (y p)) (seq 0 (dd (S k))))).
  2: { intros i _. rewrite <- rsum_mul_l. apply rsum_ext. intros. ring. }
  rewrite rsum_swap.
  rewrite (rsum_ext _ (fun p => rsum (fun i => rmul (rmul (rC (Uu k i q)) (HH (S k) i p)) (y p)) (seq 0 (dd (S k))))).
  2: { intros p Hp. apply in_seq in Hp. rewrite !rsum_mul_r. rewrite HCom_dn by (auto; lia). reflexivity. }
  rewrite rsum_swap. apply rsum_ext. intros i _. rewrite <- rsum_mul_l. apply rsum_ext. intros. ring.
Qed.
Lemma dd_over : dd (S M) = 0. Proof. exact (dd_top n si c Hc). Qed.
Lemma H_ssq : forall k x p, k <= M -> p < dd k -> cssq k (chom k x) p = chom k (cssq k x) p.
Proof.
  intros k x p Hk Hp. unfold cssq. rewrite chom_plus, chom_scal. f_equal. destruct (Nat.eq_dec k M) as [->|].
  - assert (Z : forall y q, cdn M y q = r0) by (intros; unfold cdn; rewrite dd_over; reflexivity). rewrite Z.
    symmetry. unfold chom. apply (rsum_0 (Cx RRing)). intros q _. rewrite Z. ring.
  - rewrite (cdn_ext k _ (chom (S k) (cup k x))) by (intros; symmetry; apply H_up; lia). symmetry. apply H_dn; auto. lia.
Qed.
Lemma cssq_re : forall k x p, re (cssq k x p) = ssq M dd Uu k (fun q => re (x q)) p.
Proof.
  intros. unfold cssq, ssq, dn, up, cdn, cup. rewrite re_add, re_rsum, re_rC_mul. cbn [radd RRing]. f_equal. apply sumR_ext. intros.
  rewrite re_rC_mul, re_rsum. f_equal. apply sumR_ext. intros. apply re_rC_mul.
Qed.
Lemma cssq_im : forall k x p, im (cssq k x p) = ssq M dd Uu k (fun q => im (x q)) p.
Proof.
  intros. unfold cssq, ssq, dn, up, cdn, cup. rewrite im_add, im_rsum, im_rC_mul. cbn [radd RRing]. f_equal. apply sumR_ext. intros.
  rewrite im_rC_mul, im_rsum. f_equal. apply sumR_ext. intros. apply im_rC_mul.
Qed.

Lemma ssq_zero : forall k v p, (forall q, v q = 0%R) -> ssq M dd Uu k v p = 0%R.
Proof.
  intros k v p H. unfold ssq, dn, up. rewrite H, sumR_0; [ring|]. intros i _. rewrite sumR_0; [ring|]. intros j _. rewrite H. ring.
Qed.
(** the Hamiltonian maps the columns of one slice into their span *)
Lemma slice_invariant : forall m t p, lo M a <= m <= M -> t < width m -> p < dd a ->
  chom a (fun q => rC (ra_at (VV m) q t)) p =
  rsum (fun t' => rmul (rC (ra_at (VV m) p t')) (project (dd a) ham (ra_at (VV m)) t' t)) (seq 0 (width m)).
Proof.
  intros m t p Hm Ht Hp. set (x := fun q => rC (ra_at (VV m) q t)). set (y := chom a x).
  pose proof (VV_eig n indexing si c SI0 Hc eigh_real S2 SAPP ROK m t Hm Ht) as EG. fold M a in EG.
  assert (HaM : a <= M) by (pose proof (low_twice n c Hc) as T; fold M a in T; destruct T; lia).
  assert (EX : forall q, q < dd a -> cssq a x q = rmul (rC (lam M m)) (x q)).
  { intros q Hq. apply C_eq.
    - rewrite cssq_re, re_rC_mul. exact (EG q Hq).
    - rewrite cssq_im, im_rC_mul. rewrite ssq_zero by reflexivity. symmetry. exact (Rmult_0_r _). }
  assert (EY : forall q, q < dd a -> cssq a y q = rmul (rC (lam M m)) (y q)).
  { intros q Hq. unfold y. rewrite H_ssq by auto. rewrite (chom_ext a _ (fun q => rmul (rC (lam M m)) (x q))) by auto. apply chom_scal. }
  assert (Ere : eig M dd Uu a (lam M m) (fun q => re (y q))).
  { intros q Hq. rewrite <- cssq_re, EY by auto. apply re_rC_mul. }
  assert (Eim : eig M dd Uu a (lam M m) (fun q => im (y q))).
  { intros q Hq. rewrite <- cssq_im, EY by auto. apply im_rC_mul. }
  pose proof (vON n si c eigh_real S2 ROK) as ON. pose proof (resolution _ _ ON) as RS. unfold vcol in RS. fold a in RS.
  set (ER := eigh_real (dd a) (fun p q => IZR (S2 p q))) in *.
  assert (CI : forall i, i < dd a -> lab n si c eigh_real S2 i <> m -> rsum (fun q => rmul (rC (snd ER q i)) (y q)) (seq 0 (dd a)) = r0).
  { intros i Hi N. pose proof (vEIG n si c eigh_real S2 SAPP ROK i Hi) as Ei. fold M a ER in Ei.
    destruct (lab_ok n indexing si c SI0 Hc eigh_real S2 SAPP ROK i Hi) as (B & EL & _). fold M a ER in B, EL. rewrite EL in Ei.
    assert (NL : lam M (lab n si c eigh_real S2 i) <> lam M m).
    { intros Q. apply N. apply (lam_inj M); auto; unfold lo in *; lia. }
    apply C_eq.
    - rewrite re_rsum. cbn [re r0 Cx]. transitivity (ip (dd a) (fun q => snd ER q i) (fun q => re (y q))).
      + apply sumR_ext. intros. apply re_rC_mul.
      + exact (eig_ortho M dd Uu a _ _ _ _ Ei Ere NL).
    - rewrite im_rsum. cbn [im r0 Cx]. transitivity (ip (dd a) (fun q => snd ER q i) (fun q => im (y q))).
      + apply sumR_ext. intros. apply im_rC_mul.
      + exact (eig_ortho M dd Uu a _ _ _ _ Ei Eim NL). }
  assert (EXP : y p = rsum (fun i => rmul (rC (snd ER p i)) (rsum (fun q => rmul (rC (snd ER q i)) (y q)) (seq 0 (dd a)))) (seq 0 (dd a))).
  { rewrite <- (csum_delta (dd a) p y Hp).
    rewrite (rsum_ext _ (fun q => rsum (fun i => rmul (rC (snd ER p i * snd ER q i)) (y q)) (seq 0 (dd a)))).
    - rewrite rsum_swap. apply rsum_ext. intros i _. rewrite <- rsum_mul_l. apply rsum_ext. intros q _. rewrite rC_mul. ring.
    - intros q Hq. apply in_seq in Hq. rewrite rsum_mul_r. f_equal. rewrite <- rC_sum. f_equal. rewrite <- (RS q p) by lia.
      apply sumR_ext. intros. ring. }
  change (chom a x p) with (y p). rewrite EXP.
  destruct (cls_interval n indexing si c SI0 Hc eigh_real S2 SAPP ROK m) as (f & CL & BD).
  assert (F : first n si c eigh_real S2 m = f).
  { unfold first. rewrite CL. destruct (width m); [lia|reflexivity]. }
  set (g := fun i => rmul (rC (snd ER p i)) (rsum (fun q => rmul (rC (snd ER q i)) (y q)) (seq 0 (dd a)))).
  transitivity (rsum g (cls n si c eigh_real S2 m)).
  - unfold cls. rewrite rsum_filter. fold a. apply rsum_ext. intros i Hi. apply in_seq in Hi.
    destruct (Nat.eqb_spec (lab n si c eigh_real S2 i) m) as [E|N]; auto. unfold g. rewrite CI by (auto; lia). ring.
  - rewrite CL. replace (seq f (width m)) with (map (fun i => f + i) (seq 0 (width m))).
    2: { clear. generalize (width m) as w. revert f. intros f w. revert f. induction w as [|w IH]; intros f; auto. cbn [seq map]. f_equal; [lia|].
         rewrite <- seq_shift, map_map. rewrite <- (IH (S f)). apply map_ext. intros. lia. }
    rewrite (rsum_map (Cx RRing)). apply rsum_ext. intros t' Ht'. unfold g. cbn [ra_at MultipletsProofs.VV]. fold a ER. rewrite F. f_equal.
    unfold project, y, chom, x. cbn [ra_at MultipletsProofs.VV]. fold a ER. rewrite F. apply rsum_ext. intros q _. f_equal. apply rsum_ext. intros r _.
    now rewrite HHam.
Qed.
Lemma start_H : forall m j p, lo M a <= m <= M -> j < width m -> p < dd a ->
  chom a (fun q => cl_vec (start m) q j) p = rmul (rC (fst (EC m) j)) (cl_vec (start m) p j).
Proof.
  intros m j p Hm Hj Hp. destruct (COK m Hm) as (_ & _ & EG). cbn [cl_vec MultipletsProofs.start]. unfold expand.
  transitivity (rsum (fun t => rmul (chom a (fun q => rC (ra_at (VV m) q t)) p) (snd (EC m) t j)) (seq 0 (width m))).
  - unfold chom.
    rewrite (rsum_ext _ (fun q => rsum (fun t => rmul (rmul (HH a p q) (rC (ra_at (VV m) q t))) (snd (EC m) t j)) (seq 0 (width m)))).
    + rewrite rsum_swap. apply rsum_ext. intros t _. apply rsum_mul_r.
    + intros q _. rewrite <- rsum_mul_l. apply rsum_ext. intros. ring.
  - rewrite (rsum_ext _ (fun t => rsum (fun t' => rmul (rC (ra_at (VV m) p t')) (rmul (project (dd a) ham (ra_at (VV m)) t' t) (snd (EC m) t j))) (seq 0 (width m)))).
    + rewrite rsum_swap. rewrite <- rsum_mul_l. apply rsum_ext. intros t' Ht'. apply in_seq in Ht'. rewrite rsum_mul_l. rewrite EG by (auto; lia). ring.
    + intros t Ht. apply in_seq in Ht. rewrite slice_invariant by (auto; lia). rewrite <- rsum_mul_r. apply rsum_ext. intros. ring.
Qed.
Lemma aMM : a <= M. Proof. pose proof (low_twice n c Hc) as T; fold M a in T; destruct T; lia. Qed.
Lemma upc_H : forall i m j p, a + i <= M -> a + i <= m -> lo M a <= m <= M -> j < width m -> p < dd (a + i) ->
  chom (a + i) (fun q => cl_vec (upc n si c eigh_real eigh_cplx ham S2 i m) q j) p =
  rmul (rC (fst (EC m) j)) (cl_vec (upc n si c eigh_real eigh_cplx ham S2 i m) p j).
Proof.
  induction i as [|i IH]; intros m j p Hi Him Hm Hj Hp.
  - rewrite Nat.add_0_r in *. apply start_H; auto.
  - destruct (upc_ok n indexing si c SI0 Hc eigh_real eigh_cplx ham S2 i m ltac:(fold M a; lia) ltac:(fold M a; lia) Hm) as (R & _ & _ & _ & _).
    fold M a in R. rewrite Nat.add_succ_r in *.
    destruct (sp_form n indexing si c SI0 Hc (a + i)) as (sp & sm & E & _). { fold M. lia. } fold M in E.
    assert (UE : forall p q, Uu (a + i) p q = IZR (sp p q)) by (intros; unfold MultipletsSpin.Uu; fold M; rewrite E; reflexivity).
    set (x := fun q => cl_vec (upc n si c eigh_real eigh_cplx ham S2 i m) q j).
    assert (X : forall q, cl_vec (upc n si c eigh_real eigh_cplx ham S2 (S i) m) q j = rmul (rC (/ factor n c m (a + i) (S (a + i)))) (cup (a + i) x q)).
    { intros q. cbn [upc]. fold M a. rewrite E. cbn [apply_op]. rewrite R, Nat.eqb_refl. cbn [cl_vec]. f_equal. unfold cup, x. apply rsum_ext. intros. now rewrite UE. }
    rewrite X. rewrite (chom_ext _ _ (fun q => rmul (rC (/ factor n c m (a + i) (S (a + i)))) (cup (a + i) x q))) by (intros; apply X).
    rewrite chom_scal, H_up by (auto; lia).
    rewrite (cup_ext (a + i) _ (fun q => rmul (rC (fst (EC m) j)) (x q))) by (intros; apply IH; auto; lia).
    rewrite cup_scal. ring.
Qed.
Lemma dnc_H : forall i m j p, i <= a -> M - (a - i) <= m <= M -> j < width m -> p < dd (a - i) ->
  chom (a - i) (fun q => cl_vec (dnc n si c eigh_real eigh_cplx ham S2 i m) q j) p =
  rmul (rC (fst (EC m) j)) (cl_vec (dnc n si c eigh_real eigh_cplx ham S2 i m) p j).
Proof.
  pose proof aMM as HaM.
  induction i as [|i IH]; intros m j p Hi Hm Hj Hp.
  - rewrite Nat.sub_0_r in *. apply start_H; auto. pose proof (low_twice n c Hc) as T; fold M a in T. unfold lo. destruct T; lia.
  - destruct (dnc_ok n indexing si c SI0 Hc eigh_real eigh_cplx ham S2 i m ltac:(fold M a; lia) ltac:(fold M a; lia)) as (R & _ & _ & _ & _).
    fold M a in R.
    destruct (sp_form n indexing si c SI0 Hc (a - S i)) as (sp & sm & E & E' & T). { fold M. lia. } fold M in E, E', T.
    assert (Z1 : S (a - S i) = a - i) by lia. rewrite Z1 in E, E', T.
    assert (UE : forall p q, Uu (a - S i) p q = IZR (sp p q)) by (intros; unfold MultipletsSpin.Uu; fold M; rewrite E; reflexivity).
    set (x := fun q => cl_vec (dnc n si c eigh_real eigh_cplx ham S2 i m) q j).
    assert (X : forall q, q < dd (a - S i) -> cl_vec (dnc n si c eigh_real eigh_cplx ham S2 (S i) m) q j = rmul (rC (/ factor n c m (a - i) (a - S i))) (cdn (a - S i) x q)).
    { intros q Hq. cbn [dnc]. fold M a. rewrite E'. cbn [apply_op]. rewrite R, Nat.eqb_refl. cbn [cl_vec]. f_equal. unfold cdn, x. rewrite Z1.
      apply rsum_ext. intros r Hr. apply in_seq in Hr. rewrite UE. now rewrite (T r q) by (auto; lia). }
    rewrite X by auto. rewrite (chom_ext _ _ (fun q => rmul (rC (/ factor n c m (a - i) (a - S i))) (cdn (a - S i) x q))) by (intros; apply X; auto).
    rewrite chom_scal, H_dn by (auto; lia). rewrite Z1.
    rewrite (cdn_ext (a - S i) _ (fun q => rmul (rC (fst (EC m) j)) (x q))) by (rewrite Z1; intros; apply IH; auto; lia).
    rewrite cdn_scal. ring.
Qed.
Lemma level_H : forall k m j p, k <= M -> lo M k <= m <= M -> j < width m -> p < dd k ->
  chom k (fun q => cl_vec (EE k m) q j) p = rmul (rC (fst (EC m) j)) (cl_vec (EE k m) p j).
Proof.
  intros k m j p Hk Hm Hj Hp. unfold MultipletsProofs.EE. fold a. pose proof (lo_lo k m Hk) as LL. pose proof aMM. destruct (Nat.leb_spec a k).
  - pose proof (upc_H (k - a) m j p) as Q. replace (a + (k - a)) with k in Q by lia. apply Q; auto; unfold lo in Hm; try lia. apply LL in Hm || idtac.
    split; [apply LL; unfold lo; lia|lia].
  - pose proof (dnc_H (a - k) m j p) as Q. replace (a - (a - k)) with k in Q by lia. apply Q; auto; unfold lo in Hm; lia.
Qed.
End Theorems.

(** ** from the contracts of eigh to the hypotheses above *)
Lemma spin_nsingle : forall n indexing si, spin_indexing n indexing si -> si_nsingle si = n /\ Nat.even n = true.
Proof. intros n indexing si (Hn & Ev & _ & ->). split; auto. apply init_n. Qed.
Lemma low_in : forall n c, c <= n -> low_level n c <= smax n c.
Proof. intros n c Hc. destruct (low_twice n c Hc); lia. Qed.

Lemma set_up : forall n indexing si c ham eigh_real eigh_cplx, spin_indexing n indexing si -> c <= n ->
  (forall states, get_lst si c (Some (szlow c)) None = Some states -> hermitian (length states) ham) ->
  eigh_right c si ham eigh_real eigh_cplx ->
  let M := smax n c in let a := low_level n c in let d := dd n si c a in
  exists S2, operator_ssquare c (zZ M a) si = Some (SMat d d S2) /\
    (forall p v, p < d -> sumR d (fun q => (IZR (S2 p q) * v q)%R) = ssq M (dd n si c) (Uu n si c) a v p) /\
    eigh_real_ok d (fun p q => IZR (S2 p q)) (eigh_real d (fun p q => IZR (S2 p q))) /\
    (forall m, lo M a <= m <= M -> eigh_cplx_ok (width n si c eigh_real S2 m) (project d ham (ra_at (VV n si c eigh_real S2 m)))
       (EC n si c eigh_real eigh_cplx ham S2 m)).
Proof.
  intros n indexing si c ham eigh_real eigh_cplx SI0 Hc HM (RC & CC) M a d.
  destruct (spin_nsingle _ _ _ SI0) as (En & Ev). pose proof (low_in n c Hc) as HaM. fold M a in HaM.
  assert (LW : szlow c = zZ M a) by exact (szlow_level n c Ev Hc).
  destruct (ssq_form n indexing si c SI0 Hc a HaM) as (S2 & SQ & SYM & SAPP). fold M d in SQ, SYM, SAPP.
  exists S2. split; auto. split; auto.
  assert (ROK : eigh_real_ok d (fun p q => IZR (S2 p q)) (eigh_real d (fun p q => IZR (S2 p q)))).
  { apply RC; auto. now rewrite LW. }
  split; auto. intros m Hm.
  destruct (eigenstates_ok n c si En Ev Hc) with (eigh_real := eigh_real) (d := d) (S2 := S2) (V := VV n si c eigh_real S2)
    (E := EE n si c eigh_real eigh_cplx ham S2) (eigh_cplx := eigh_cplx) (ham := ham) (statelst := blk n si c a) as (L & EL & AL); auto.
  { unfold d. symmetry. apply dd_in. auto. }
  { intros m' Hm'. apply (slice_ok n indexing si c SI0 Hc eigh_real S2 SAPP ROK m' Hm'). }
  { intros m' Hm'. unfold EE. fold a. rewrite (proj2 (Nat.leb_le a a)) by lia. replace (a - a) with 0 by lia. reflexivity. }
  fold M a in EL, AL. rewrite <- LW in EL. apply (CC L (VV n si c eigh_real S2 m) EL).
  - apply nth_error_In with (n := pos M a m). auto.
  - apply project_hermitian. cbn [ra_rows VV]. specialize (HM (blk n si c a)). rewrite LW in HM.
    rewrite <- (dd_in n si c a HaM) in HM. apply HM. apply (blk_lst n indexing si c SI0 Hc a HaM).
Qed.
Lemma sz_level : forall n c sz, c <= n -> In sz (szrange c n) -> exists k, k <= smax n c /\ sz = zZ (smax n c) k.
Proof.
  intros n c sz Hc Hz. rewrite (szrange_levels n c Hc) in Hz. apply in_map_iff in Hz. destruct Hz as (k & <- & Hk). apply in_seq in Hk.
  exists k. split; [lia|reflexivity].
Qed.
Lemma ssq_level : forall n c k ssq, c <= n -> k <= smax n c -> In ssq (ssqrange c (zZ (smax n c) k) n) ->
  exists m, lo (smax n c) k <= m <= smax n c /\ ssq = zZ (smax n c) m.
Proof.
  intros n c k ssq Hc Hk Hs. rewrite (ssqrange_level n c Hc k Hk) in Hs. apply in_map_iff in Hs. destruct Hs as (m & <- & Hm). apply in_seq in Hm.
  unfold rowlen in Hm. pose proof (lo_le (smax n c) k Hk). exists m. split; [lia|reflexivity].
Qed.
Lemma cell_at : forall n c E s k m, c <= n -> k <= smax n c -> lo (smax n c) k <= m <= smax n c -> fits n c E s k ->
  cell_of s c n (zZ (smax n c) k) (zZ (smax n c) m) = Some (E k m).
Proof.
  intros n c E s k m Hc Hk Hm F. unfold cell_of. rewrite (sz_pos n c Hc k), (ssq_pos (smax n c) k m Hk) by lia. rewrite sget_nat. apply F. auto.
Qed.
Lemma zZ_inj : forall M k k', zZ M k = zZ M k' -> k = k'. Proof. intros. unfold zZ in *. lia. Qed.

(** *** C53 *)
Theorem C53_multiplets : forall n indexing si c ham eigh_real eigh_cplx, spin_indexing n indexing si -> c <= n ->
  (forall states, get_lst si c (Some (szlow c)) None = Some states -> hermitian (length states) ham) ->
  eigh_right c si ham eigh_real eigh_cplx ->
  exists s, eigenstates_ssq_all eigh_real eigh_cplx c ham si = Some s /\
  (forall sz, In sz (szrange c n) ->
     exists states S2 (x : Z -> cell), get_lst si c (Some sz) None = Some states /\
     operator_ssquare c sz si = Some (SMat (length states) (length states) S2) /\
     (forall ssq, In ssq (ssqrange c sz n) ->
        cell_of s c n sz ssq = Some (x ssq) /\ cl_rows (x ssq) = length states /\ 1 <= cl_cols (x ssq) /\
        forall p j, p < length states -> j < cl_cols (x ssq) ->
          rsum (fun q => rmul (rC (IZR (S2 p q))) (cl_vec (x ssq) q j)) (seq 0 (length states)) =
          rmul (rC (IZR (ssq * (ssq + 2)))) (cl_vec (x ssq) p j)) /\
     (forall ssq ssq' j j', In ssq (ssqrange c sz n) -> In ssq' (ssqrange c sz n) -> j < cl_cols (x ssq) -> j' < cl_cols (x ssq') ->
        rsum (fun p => rmul (conj (cl_vec (x ssq) p j)) (cl_vec (x ssq') p j')) (seq 0 (length states)) =
        if (ssq =? ssq')%Z && (j =? j') then r1 else r0) /\
     sumn (map (fun ssq => cl_cols (x ssq)) (ssqrange c sz n)) = length states) /\
  (forall sz sz' ssq x x', In sz (szrange c n) -> In sz' (szrange c n) -> In ssq (ssqrange c sz n) -> In ssq (ssqrange c sz' n) ->
     cell_of s c n sz ssq = Some x -> cell_of s c n sz' ssq = Some x' -> cl_cols x = cl_cols x' /\ cl_vals x = cl_vals x').
Proof.
  intros n indexing si c ham eigh_real eigh_cplx SI0 Hc HM EH.
  destruct (set_up n indexing si c ham eigh_real eigh_cplx SI0 Hc HM EH) as (S2 & SQ & SAPP & ROK & COK). set (M := smax n c) in *. set (a := low_level n c) in *.
  destruct (run n indexing si c SI0 Hc eigh_real eigh_cplx ham S2 SQ SAPP ROK) as (s & ES & F). fold M in F.
  set (E := EE n si c eigh_real eigh_cplx ham S2) in *. exists s. split; auto.
  assert (CE : forall k m, k <= M -> lo M k <= m <= M -> cell_of s c n (zZ M k) (zZ M m) = Some (E k m)).
  { intros k m Hk Hm. apply cell_at; auto. }
  split.
  - intros sz Hz. destruct (sz_level n c sz Hc Hz) as (k & Hk & ->). fold M in Hk.
    destruct (ssq_form n indexing si c SI0 Hc k Hk) as (S2k & SQk & _ & _).
    exists (blk n si c k), S2k, (fun ssq => E k (Z.to_nat ((ssq + Z.of_nat M) / 2))). fold M in SQk |- *. rewrite <- (dd_in n si c k Hk).
    assert (IV : forall m, Z.to_nat ((zZ M m + Z.of_nat M) / 2) = m).
    { intros m. unfold zZ. replace (2 * Z.of_nat m - Z.of_nat M + Z.of_nat M)%Z with (Z.of_nat m * 2)%Z by lia. rewrite Z.div_mul by lia. lia. }
    split; [apply (blk_lst n indexing si c SI0 Hc k Hk)|]. split; auto. split; [|split].
    + intros ssq Hs. destruct (ssq_level n c k ssq Hc Hk Hs) as (m & Hm & ->). fold M in Hm |- *. rewrite IV.
      destruct (cell_spec n indexing si c SI0 Hc eigh_real eigh_cplx ham S2 SAPP ROK k m Hk Hm) as (CR & CW & _). fold M E in CR, CW.
      split; auto. split; auto. split.
      * rewrite CW. apply (width_pos n indexing si c SI0 Hc eigh_real S2 SAPP ROK). fold M a. pose proof (lo_lo n c Hc k m Hk) as LL. fold M a in LL. lia.
      * intros p j Hp Hj. apply (level_ssq n indexing si c SI0 Hc eigh_real eigh_cplx ham S2 SAPP ROK k m S2k p j Hk Hm SQk Hp).
    + intros ssq ssq' j j' Hs Hs' Hj Hj'. destruct (ssq_level n c k ssq Hc Hk Hs) as (m & Hm & ->). destruct (ssq_level n c k ssq' Hc Hk Hs') as (m' & Hm' & ->).
      fold M in Hm, Hm', Hj, Hj' |- *. rewrite !IV in *.
      destruct (cell_spec n indexing si c SI0 Hc eigh_real eigh_cplx ham S2 SAPP ROK k m Hk Hm) as (_ & CW & _). fold M E in CW.
      destruct (cell_spec n indexing si c SI0 Hc eigh_real eigh_cplx ham S2 SAPP ROK k m' Hk Hm') as (_ & CW' & _). fold M E in CW'.
      rewrite CW in Hj. rewrite CW' in Hj'.
      pose proof (level_on n indexing si c SI0 Hc eigh_real eigh_cplx ham S2 SAPP ROK COK k m m' j j' Hk Hm Hm' Hj Hj') as Q. unfold cip in Q. fold M E in Q.
      rewrite Q. replace (zZ M m =? zZ M m')%Z with (m =? m'); auto. destruct (Nat.eqb_spec m m') as [->|N]; symmetry; [apply Z.eqb_refl|].
      apply Z.eqb_neq. intros X. apply zZ_inj in X. contradiction.
    + pose proof (ssqrange_level n c Hc k Hk) as RL; fold M in RL; rewrite RL; clear RL. rewrite map_map.
      rewrite <- (level_sum n indexing si c SI0 Hc eigh_real S2 SAPP ROK k Hk). fold M. f_equal. apply map_ext_in. intros m Hm. apply in_seq in Hm. rewrite IV.
      apply (cell_spec n indexing si c SI0 Hc eigh_real eigh_cplx ham S2 SAPP ROK k m Hk). fold M. unfold rowlen in Hm. pose proof (lo_le M k Hk). lia.
  - intros sz sz' ssq x x' Hz Hz' Hs Hs' Ex Ex'. destruct (sz_level n c sz Hc Hz) as (k & Hk & ->). destruct (sz_level n c sz' Hc Hz') as (k' & Hk' & ->).
    destruct (ssq_level n c k ssq Hc Hk Hs) as (m & Hm & ->). destruct (ssq_level n c k' _ Hc Hk' Hs') as (m' & Hm' & EQ). apply zZ_inj in EQ. subst m'.
    fold M in Hk, Hk', Hm, Hm', Ex, Ex'. rewrite CE in Ex, Ex' by auto. injection Ex as <-. injection Ex' as <-.
    destruct (cell_spec n indexing si c SI0 Hc eigh_real eigh_cplx ham S2 SAPP ROK k m Hk Hm) as (_ & W1 & V1 & _).
    destruct (cell_spec n indexing si c SI0 Hc eigh_real eigh_cplx ham S2 SAPP ROK k' m Hk' Hm') as (_ & W2 & V2 & _). unfold E. split; congruence.
Qed.

(** with 'ssq' indexing a cell has as many columns as there are state numbers reserved for it *)
Theorem C53_ssq_cells : forall n si c ham eigh_real eigh_cplx, spin_indexing n "ssq" si -> c <= n ->
  (forall states, get_lst si c (Some (szlow c)) None = Some states -> hermitian (length states) ham) ->
  eigh_right c si ham eigh_real eigh_cplx ->
  exists s, eigenstates_ssq_all eigh_real eigh_cplx c ham si = Some s /\
  forall sz ssq, In sz (szrange c n) -> In ssq (ssqrange c sz n) ->
  exists x states, cell_of s c n sz ssq = Some x /\ get_lst si c (Some sz) (Some ssq) = Some states /\ length states = cl_cols x.
Proof.
  intros n si c ham eigh_real eigh_cplx SI0 Hc HM EH.
  destruct (set_up n "ssq" si c ham eigh_real eigh_cplx SI0 Hc HM EH) as (S2 & SQ & SAPP & ROK & COK). set (M := smax n c) in *. set (a := low_level n c) in *.
  destruct (run n "ssq" si c SI0 Hc eigh_real eigh_cplx ham S2 SQ SAPP ROK) as (s & ES & F). fold M in F. exists s. split; auto.
  destruct (spin_nsingle _ _ _ SI0) as (En & Ev). pose proof SI0 as (Hn & _ & _ & Esi).
  destruct (C04_ssq_blocks n Hn Ev) as (CX & _ & CB & CI). rewrite <- Esi in CX, CB, CI.
  set (lst := fun c0 sz ssq => match get_lst si c0 (Some sz) (Some ssq) with Some l => l | None => [] end) in *.
  set (f := fun m => length (lst c (zZ M m) (zZ M m))).
  assert (IN : forall k m, k <= M -> lo M k <= m <= M -> In (zZ M m) (ssqrange c (zZ M k) n)).
  { intros k m Hk Hm. pose proof (ssqrange_level n c Hc k Hk) as RL; fold M in RL; rewrite RL; clear RL. apply in_map, in_seq. unfold rowlen. lia. }
  assert (LF : forall k m, k <= M -> lo M k <= m <= M -> length (lst c (zZ M k) (zZ M m)) = f m).
  { intros k m Hk Hm. apply CI; auto; try (apply (lev_in n c Hc); fold M; lia); apply IN; auto; unfold lo in *; lia. }
  assert (DS : forall k, k <= M -> dd n si c k = sumn (map f (seq (lo M k) (rowlen M k)))).
  { intros k Hk. rewrite (dd_in n si c k Hk). pose proof (blk_lst n "ssq" si c SI0 Hc k Hk) as B.
    pose proof (CB c (zZ M k) Hc (lev_in n c Hc k Hk)) as B'. fold M in B. rewrite B in B'. injection B' as ->.
    pose proof (ssqrange_level n c Hc k Hk) as RL; fold M in RL; rewrite RL; clear RL.
    assert (AA : forall l, (forall m, In m l -> lo M k <= m <= M) -> length (flat_map (lst c (zZ M k)) (map (zZ M) l)) = sumn (map f l)).
    { induction l as [|m l IH]; intros H; auto. cbn [map flat_map]. rewrite app_length, LF by (auto; apply H; now left).
      change (f m + length (flat_map (lst c (zZ M k)) (map (zZ M) l)) = f m + sumn (map f l)). rewrite IH; auto. intros. apply H. now right. }
    apply AA. intros m Hm. apply in_seq in Hm. unfold rowlen in Hm. pose proof (lo_le M k Hk). lia. }
  intros sz ssq Hz Hs. destruct (sz_level n c sz Hc Hz) as (k & Hk & ->). destruct (ssq_level n c k ssq Hc Hk Hs) as (m & Hm & ->). fold M in Hk, Hm, Hz, Hs |- *.
  destruct (CX c _ _ Hc Hz Hs) as (l & El). exists (EE n si c eigh_real eigh_cplx ham S2 k m), l. split; [apply cell_at; auto|]. split; auto.
  destruct (cell_spec n "ssq" si c SI0 Hc eigh_real eigh_cplx ham S2 SAPP ROK k m Hk Hm) as (_ & -> & _).
  pose proof (LF k m Hk Hm) as L. unfold lst in L. rewrite El in L. rewrite L.
  pose proof (low_twice n c Hc) as TW. fold M a in TW.
  pose proof (width_val n "ssq" si c SI0 Hc eigh_real S2 SAPP ROK m) as W. fold M a in W. unfold lo in Hm.
  specialize (W ltac:(destruct TW; lia)).
  assert (D0 : dd n si c m = f m + dd n si c (S m)).
  { rewrite (DS m) by lia. destruct (Nat.eq_dec m M) as [->|].
    - pose proof (dd_top n si c Hc) as T. fold M in T. rewrite T. unfold rowlen, lo. replace (Nat.max M (M - M)) with M by lia. replace (S M - M) with 1 by lia. cbn. lia.
    - rewrite (DS (S m)) by lia. unfold rowlen, lo. replace (Nat.max m (M - m)) with m by lia. replace (Nat.max (S m) (M - S m)) with (S m) by lia.
      replace (S M - m) with (S (S M - S m)) by lia. reflexivity. }
  lia.
Qed.

(** for a Hamiltonian that commutes with the spin operators the columns are eigenvectors in every block *)
Theorem C53_hamiltonian : forall n indexing si c H eigh_real eigh_cplx, spin_indexing n indexing si -> c <= n ->
  (forall sz states, In sz (szrange c n) -> get_lst si c (Some sz) None = Some states -> hermitian (length states) (H sz)) ->
  (forall sz d' d sp, In sz (szrange c n) -> In (sz + 2)%Z (szrange c n) -> operator_sp c sz si = Some (SMat d' d sp) ->
     forall p q, p < d' -> q < d ->
     rsum (fun i => rmul (H (sz + 2)%Z p i) (rC (IZR (sp i q)))) (seq 0 d') = rsum (fun i => rmul (rC (IZR (sp p i))) (H sz i q)) (seq 0 d)) ->
  eigh_right c si (H (szlow c)) eigh_real eigh_cplx ->
  exists s, eigenstates_ssq_all eigh_real eigh_cplx c (H (szlow c)) si = Some s /\
  forall sz ssq, In sz (szrange c n) -> In ssq (ssqrange c sz n) ->
  exists states x, get_lst si c (Some sz) None = Some states /\ cell_of s c n sz ssq = Some x /\
    forall p j, p < length states -> j < cl_cols x ->
      rsum (fun q => rmul (H sz p q) (cl_vec x q j)) (seq 0 (length states)) = rmul (rC (cl_vals x j)) (cl_vec x p j).
Proof.
  intros n indexing si c H eigh_real eigh_cplx SI0 Hc HHm HC EH. destruct (spin_nsingle _ _ _ SI0) as (En & Ev).
  pose proof (low_in n c Hc) as HaM. assert (LW : szlow c = zZ (smax n c) (low_level n c)) by exact (szlow_level n c Ev Hc).
  assert (LI : In (szlow c) (szrange c n)) by (rewrite LW; apply (lev_in n c Hc); auto).
  destruct (set_up n indexing si c (H (szlow c)) eigh_real eigh_cplx SI0 Hc) as (S2 & SQ & SAPP & ROK & COK); auto.
  set (M := smax n c) in *. set (a := low_level n c) in *.
  destruct (run n indexing si c SI0 Hc eigh_real eigh_cplx (H (szlow c)) S2 SQ SAPP ROK) as (s & ES & F). fold M in F. exists s. split; auto.
  intros sz ssq Hz Hs. destruct (sz_level n c sz Hc Hz) as (k & Hk & ->). destruct (ssq_level n c k ssq Hc Hk Hs) as (m & Hm & ->). fold M in Hk, Hm, Hz, Hs |- *.
  exists (blk n si c k), (EE n si c eigh_real eigh_cplx (H (szlow c)) S2 k m).
  split; [apply (blk_lst n indexing si c SI0 Hc k Hk)|]. split; [apply cell_at; auto|]. rewrite <- (dd_in n si c k Hk). intros p j Hp Hj.
  destruct (cell_spec n indexing si c SI0 Hc eigh_real eigh_cplx (H (szlow c)) S2 SAPP ROK k m Hk Hm) as (_ & CW & CV & _). rewrite CW in Hj. rewrite CV.
  refine (level_H n indexing si c SI0 Hc eigh_real eigh_cplx (H (szlow c)) S2 SAPP ROK COK (fun k => H (zZ M k)) _ _ _ k m j p Hk Hm Hj Hp).
  - intros p0 q0. fold a. now rewrite LW.
  - intros k0 Hk0. rewrite (dd_in n si c k0 Hk0). apply (HHm (zZ M k0)); [apply (lev_in n c Hc); auto|]. apply (blk_lst n indexing si c SI0 Hc k0 Hk0).
  - intros k0 p0 q0 Hk0 Hp0 Hq0. fold M in Hk0. destruct (sp_form n indexing si c SI0 Hc k0 Hk0) as (sp & sm & E & _). fold M in E.
    assert (UE : forall p q, Uu n si c k0 p q = IZR (sp p q)) by (intros; unfold Uu; fold M; rewrite E; reflexivity).
    assert (Z2 : (zZ M k0 + 2)%Z = zZ M (S k0)) by (unfold zZ; lia).
    pose proof (HC (zZ M k0) _ _ sp (lev_in n c Hc k0 ltac:(fold M; lia)) ltac:(rewrite Z2; apply (lev_in n c Hc); auto) E p0 q0 Hp0 Hq0) as Q. rewrite Z2 in Q.
    etransitivity; [|etransitivity; [exact Q|]]; apply rsum_ext; intros i _; now rewrite UE.
Qed.
Print Assumptions C53_multiplets.
Print Assumptions C53_ssq_cells.
Print Assumptions C53_hamiltonian.

(** two electrons on two orbitals: three singlets and a triplet *)
Section MultipletCase.
Local Open Scope R_scope.
Definition mc_h : R := / sqrt 2.
Lemma mc_hh : mc_h * mc_h = / 2.
Proof. unfold mc_h. rewrite <- Rinv_mult. now rewrite sqrt_sqrt by lra. Qed.
Definition mc_si : SI := si_init 4 "ssq".
Definition mc_rtab (T : list (list R)) (p q : nat) : R := nth q (nth p T []) 0.
Definition mc_ctab (T : list (list C)) (p q : nat) : C := nth q (nth p T []) (rC 0).
Definition mc_cI (x : R) : C := @mkC RRing 0 x.
Definition mc_eigR (d : nat) (A : nat -> nat -> R) : (nat -> R) * (nat -> nat -> R) :=
  (fun j => nth j [0; 0; 0; 8] 0, mc_rtab [[1; 0; 0; 0]; [0; 0; mc_h; mc_h]; [0; 0; mc_h; - mc_h]; [0; 1; 0; 0]]).
Definition mc_eigC (d : nat) (A : nat -> nat -> C) : (nat -> R) * (nat -> nat -> C) :=
  if (d =? 3)%nat then (fun j => nth j [3; 5; 7] 0, mc_ctab [[rC mc_h; rC mc_h; rC 0]; [mc_cI mc_h; mc_cI (- mc_h); rC 0]; [rC 0; rC 0; rC 1]])
  else (fun j => 9, fun p j => rC 1).
(** the doubly occupied states are coupled by the imaginary number; singlet 7, triplet 9 *)
Definition mc_H (sz : Z) : nat -> nat -> C :=
  if (sz =? 0)%Z then mc_ctab [[rC 4; rC 0; rC 0; mc_cI 1]; [rC 0; rC 8; rC (-1); rC 0]; [rC 0; rC (-1); rC 8; rC 0]; [mc_cI (-1); rC 0; rC 0; rC 4]]
  else fun p q => rC 9.
Ltac cas p := destruct p as [|[|[|[|p]]]]; try lia.
Ltac cplx_tac := apply C_eq; lazy -[Rplus Rmult Ropp Rminus Rinv IZR mc_h]; pose proof mc_hh; try lra; try nra.
Lemma mc_table : forall m, operator_ssquare 2 0 mc_si = Some (SMat 4 4 m) -> forall p q,
  (p < 4)%nat -> (q < 4)%nat -> IZR (m p q) = mc_rtab [[0; 0; 0; 0]; [0; 4; -4; 0]; [0; -4; 4; 0]; [0; 0; 0; 0]] p q.
Proof.
  intros m E p q Hp Hq. replace (m p q) with (sval (operator_ssquare 2 0 mc_si) p q) by (rewrite E; reflexivity).
  replace (sval (operator_ssquare 2 0 mc_si) p q) with (nth q (nth p [[0; 0; 0; 0]; [0; 4; -4; 0]; [0; -4; 4; 0]; [0; 0; 0; 0]]%Z []) 0%Z);
  [|cas p; cas q; vm_compute; reflexivity]. cas p; cas q; reflexivity.
Qed.
Lemma mc_real : forall m, operator_ssquare 2 0 mc_si = Some (SMat 4 4 m) ->
  eigh_real_ok 4 (fun p q => IZR (m p q)) (mc_eigR 4 (fun p q => IZR (m p q))).
Proof.
  intros m E. pose proof mc_hh as HH0. split; [|split].
  - intros i j Hij Hj. cas j; cas i; cbn; lra.
  - intros i j Hi Hj. cas j; cas i; cbn; lra.
  - intros p j Hp Hj.
    assert (Q : sumR 4 (fun q => IZR (m p q) * snd (mc_eigR 4 (fun p q => IZR (m p q))) q j) =
      sumR 4 (fun q => mc_rtab [[0; 0; 0; 0]; [0; 4; -4; 0]; [0; -4; 4; 0]; [0; 0; 0; 0]] p q * snd (mc_eigR 4 (fun p q => IZR (m p q))) q j)).
    { apply sumR_ext. intros q Hq. now rewrite (mc_table m E p q Hp Hq). }
    cbv beta. rewrite Q. cas p; cas j; cbn; lra.
Qed.
Lemma mc_rint1 : rint (-1 + sqrt (1 + 0)) = 0%Z.
Proof. apply rint_Z. rewrite Rplus_0_r, sqrt_1. lra. Qed.
Lemma mc_rint9 : rint (-1 + sqrt (1 + 8)) = 2%Z.
Proof. apply rint_Z. replace (1 + 8) with (3 * 3) by lra. rewrite sqrt_square by lra. lra. Qed.
Lemma mc_ssq : exists m, operator_ssquare 2 0 mc_si = Some (SMat 4 4 m).
Proof.
  destruct (ssq_form 4 "ssq" mc_si 2 ltac:(repeat split; auto; lia) ltac:(lia) 1%nat ltac:(vm_compute; lia)) as (m & E & _).
  exists m. exact E.
Qed.
Lemma mc_slices : exists V0 V2, ssquare_eigenstates mc_eigR 2 0 mc_si = Some [Some V0; Some V2] /\
  V0 = mkRArr 4 3 (fun p j => mc_rtab [[1; 0; 0; 0]; [0; 0; mc_h; mc_h]; [0; 0; mc_h; - mc_h]; [0; 1; 0; 0]] p (0 + j)) /\
  V2 = mkRArr 4 1 (fun p j => mc_rtab [[1; 0; 0; 0]; [0; 0; mc_h; mc_h]; [0; 0; mc_h; - mc_h]; [0; 1; 0; 0]] p (3 + j)).
Proof.
  destruct mc_ssq as (m & E). do 2 eexists. split; [|split; reflexivity]. unfold ssquare_eigenstates. rewrite E.
  change (negb (Z.of_nat 2 mod 2 =? 0 mod 2)%Z) with false. change (4 =? 4)%nat with true.
  change (si_nsingle mc_si) with 4%nat. change (ssqrange 2 0 4) with [0; 2]%Z. cbv iota. unfold mc_eigR.
  change (map (fun j => rint (-1 + sqrt (1 + nth j [0; 0; 0; 8] 0))) (seq 0 4))
    with [rint (-1 + sqrt (1 + 0)); rint (-1 + sqrt (1 + 0)); rint (-1 + sqrt (1 + 0)); rint (-1 + sqrt (1 + 8))].
  rewrite mc_rint1, mc_rint9. reflexivity.
Qed.
Lemma mc_right : eigh_right 2 mc_si (mc_H (szlow 2)) mc_eigR mc_eigC.
Proof.
  change (szlow 2) with 0%Z. split.
  - change (szlow 2) with 0%Z. intros d m E _. destruct mc_ssq as (m' & E'). rewrite E in E'. assert (d = 4%nat) by congruence. subst d. apply mc_real. exact E.
  - change (szlow 2) with 0%Z. intros L V E HV hamp _. destruct mc_slices as (V0 & V2 & E' & E0 & E2). rewrite E in E'. injection E' as ->.
    destruct HV as [Q|[Q|[]]]; injection Q as <-; subst; unfold hamp; cbn [ra_cols ra_rows ra_at]; clear; pose proof mc_hh as HH0.
    + split; [|split].
      * intros i j Hij Hj. destruct j as [|[|[|j]]]; try lia; destruct i as [|[|[|i]]]; try lia; cbn; lra.
      * intros i j Hi Hj. destruct j as [|[|[|j]]]; try lia; destruct i as [|[|[|i]]]; try lia; cplx_tac.
      * intros p j Hp Hj. destruct j as [|[|[|j]]]; try lia; destruct p as [|[|[|p]]]; try lia; cplx_tac.
    + split; [|split].
      * intros i j Hij Hj. cbn; lra.
      * intros i j Hi Hj. assert (i = 0%nat) by lia. assert (j = 0%nat) by lia. subst. cplx_tac.
      * intros p j Hp Hj. assert (p = 0%nat) by lia. assert (j = 0%nat) by lia. subst. cplx_tac.
Qed.
Lemma mc_herm : forall sz states, In sz (szrange 2 4) -> get_lst mc_si 2 (Some sz) None = Some states -> hermitian (length states) (mc_H sz).
Proof.
  intros sz states Hz E. change (szrange 2 4) with [-2; 0; 2]%Z in Hz.
  destruct Hz as [<-|[<-|[<-|[]]]]; vm_compute in E; injection E as <-; cbn [length]; intros p q Hp Hq.
  - cplx_tac.
  - cas p; cas q; cplx_tac.
  - cplx_tac.
Qed.
Lemma mc_commutes : forall sz d' d sp, In sz (szrange 2 4) -> In (sz + 2)%Z (szrange 2 4) -> operator_sp 2 sz mc_si = Some (SMat d' d sp) ->
  forall p q, (p < d')%nat -> (q < d)%nat ->
  rsum (fun i => rmul (mc_H (sz + 2)%Z p i) (rC (IZR (sp i q)))) (seq 0 d') = rsum (fun i => rmul (rC (IZR (sp p i))) (mc_H sz i q)) (seq 0 d).
Proof.
  intros sz d' d sp Hz Hz' E p q Hp Hq. change (szrange 2 4) with [-2; 0; 2]%Z in Hz, Hz'.
  assert (V : forall i j, sp i j = sval (operator_sp 2 sz mc_si) i j) by (intros; rewrite E; reflexivity).
  destruct (sp_form 4 "ssq" mc_si 2 ltac:(repeat split; auto; lia) ltac:(lia) (Z.to_nat (sz + 2) / 2)%nat) as (sp' & sm' & E' & _).
  { destruct Hz as [<-|[<-|[<-|[]]]]; try (vm_compute; lia). destruct Hz' as [X|[X|[X|[]]]]; lia. }
  destruct Hz as [<-|[<-|[<-|[]]]].
  - match type of E' with _ = Some (SMat ?x ?y _) => let x' := eval vm_compute in x in let y' := eval vm_compute in y in
      change (operator_sp 2 (-2) mc_si = Some (SMat x' y' sp')) in E' end. rewrite E in E'. assert (d' = 4%nat) by congruence. assert (d = 1%nat) by congruence. subst d d'.
    assert (q = 0%nat) by lia. subst q.
    assert (T : forall i, (i < 4)%nat -> sp i 0%nat = nth i [0; -2; 2; 0]%Z 0%Z) by (intros i Hi; rewrite V; cas i; vm_compute; reflexivity).
    change (seq 0 4) with [0; 1; 2; 3]%nat. change (seq 0 1) with [0]%nat. cbn [rsum]. rewrite !T by lia. cas p; cplx_tac.
  - match type of E' with _ = Some (SMat ?x ?y _) => let x' := eval vm_compute in x in let y' := eval vm_compute in y in
      change (operator_sp 2 0 mc_si = Some (SMat x' y' sp')) in E' end. rewrite E in E'. assert (d' = 1%nat) by congruence. assert (d = 4%nat) by congruence. subst d d'.
    assert (p = 0%nat) by lia. subst p.
    assert (T : forall i, (i < 4)%nat -> sp 0%nat i = nth i [0; -2; 2; 0]%Z 0%Z) by (intros i Hi; rewrite V; cas i; vm_compute; reflexivity).
    change (seq 0 4) with [0; 1; 2; 3]%nat. change (seq 0 1) with [0]%nat. cbn [rsum]. rewrite !T by lia. cas q; cplx_tac.
  - exfalso. destruct Hz' as [X|[X|[X|[]]]]; lia.
Qed.
End MultipletCase.

Example C53_case :
  spin_indexing 4 "ssq" mc_si /\ eigh_right 2 mc_si (mc_H (szlow 2)) mc_eigR mc_eigC /\
  exists s, eigenstates_ssq_all mc_eigR mc_eigC 2 (mc_H (szlow 2)) mc_si = Some s /\
    (exists x, cell_of s 2 4 0 0 = Some x /\ cl_cols x = 3) /\ (exists x, cell_of s 2 4 2 2 = Some x /\ cl_cols x = 1).
Proof.
  assert (SI0 : spin_indexing 4 "ssq" mc_si) by (repeat split; auto; lia). pose proof mc_right as R0. split; auto. split; auto.
  destruct (C53_hamiltonian 4 "ssq" mc_si 2 mc_H mc_eigR mc_eigC SI0 ltac:(lia) mc_herm mc_commutes R0) as (s & E & _).
  destruct (C53_ssq_cells 4 mc_si 2 (mc_H (szlow 2)) mc_eigR mc_eigC SI0 ltac:(lia)) as (s' & E' & CL); auto.
  { intros states Hs. apply (mc_herm (szlow 2)); auto. cbv. auto. }
  rewrite E in E'. injection E' as <-. exists s. split; auto. split.
  - destruct (CL 0%Z 0%Z ltac:(cbv; auto) ltac:(cbv; auto)) as (x & l & Ex & El & Q). vm_compute in El. injection El as <-. exists x. split; auto.
  - destruct (CL 2%Z 2%Z ltac:(cbv; auto) ltac:(cbv; auto)) as (x & l & Ex & El & Q). vm_compute in El. injection El as <-. exists x. split; auto.
Qed.
