(** Multiplets: labels of the eigenvectors of S^2, the cells along the ladders, orthonormality, eigenvalues. *)
From Coq Require Import String ZArith List Arith Lia Bool Reals Lra.
From Verif Require Import Base Bits Indexing IndexingProofs RemoveProofs Binom SsqProofs Qn PropIndexing CRing Fock Operators OperatorsProofs
  PropOperators PropRotate SpinFock SpinOps PropSpinOps LinR Tower Multiplets MultipletsExec MultipletsSpin.
Import ListNotations.
Open Scope nat_scope.
Local Notation length := List.length.
Local Notation C := (Cx RRing).

(** ** np.rint of an integer *)
Lemma rint_Z : forall k x, x = IZR k -> rint x = k.
Proof.
  intros k x ->. unfold rint. assert (U : Rdefinitions.up (IZR k) = (k + 1)%Z).
  { symmetry. apply tech_up; rewrite plus_IZR; lra. }
  rewrite U. replace (k + 1 - 1)%Z with k by lia. destruct (total_order_T (IZR k - IZR k) (1 / 2)) as [[|]|]; auto; lra.
Qed.

(** ** sums of complex numbers *)
Lemma rsum_sumR : forall (f : nat -> RRing) n, @rsum RRing nat f (seq 0 n) = sumR n f.
Proof.
  intros f n. induction n as [|n IH]; auto. rewrite seq_S, rsum_app, IH. cbn [rsum sumR plus]. cbn [radd r0 RRing]. apply (f_equal (Rplus _)). apply Rplus_0_r.
Qed.
Lemma re_rsum : forall (f : nat -> C) n, re (rsum f (seq 0 n)) = sumR n (fun i => re (f i)).
Proof. intros. rewrite rsum_re. apply rsum_sumR. Qed.
Lemma im_rsum : forall (f : nat -> C) n, im (rsum f (seq 0 n)) = sumR n (fun i => im (f i)).
Proof. intros. rewrite rsum_im. apply rsum_sumR. Qed.
Lemma re_rC_mul : forall x (y : C), re (rmul (rC x) y) = (x * re y)%R.
Proof. intros. rewrite re_mul. unfold rC, ofR. cbn. ring. Qed.
Lemma im_rC_mul : forall x (y : C), im (rmul (rC x) y) = (x * im y)%R.
Proof. intros. rewrite im_mul. unfold rC, ofR. cbn. ring. Qed.
Lemma C_eq : forall x y : C, re x = re y -> im x = im y -> x = y.
Proof. intros [a b] [a' b']; simpl; intros; congruence. Qed.

(** ** complex columns *)
Definition cip (d : nat) (x y : nat -> C) : C := rsum (fun p => rmul (conj (x p)) (y p)) (seq 0 d).
Definition rev (x : nat -> C) : nat -> R := fun p => re (x p).
Definition imv (x : nat -> C) : nat -> R := fun p => im (x p).
Lemma cip_re : forall d x y, re (cip d x y) = (ip d (rev x) (rev y) + ip d (imv x) (imv y))%R.
Proof.
  intros. unfold cip, ip. rewrite re_rsum, <- sumR_plus. apply sumR_ext. intros i _. rewrite re_mul. unfold conj, rev, imv. cbn. ring.
Qed.
Lemma cip_im : forall d x y, im (cip d x y) = (ip d (rev x) (imv y) - ip d (imv x) (rev y))%R.
Proof.
  intros. unfold cip, ip. rewrite im_rsum, <- sumR_minus. apply sumR_ext. intros i _. rewrite im_mul. unfold conj, rev, imv. cbn. ring.
Qed.

(** real or imaginary part *)
Definition part (b : bool) (z : C) : R := if b then re z else im z.

(** ** contracts of the diagonalisation routines *)
Definition eigh_real_ok (d : nat) (A : nat -> nat -> R) (r : (nat -> R) * (nat -> nat -> R)) : Prop :=
  (forall i j, i <= j -> j < d -> (fst r i <= fst r j)%R) /\
  (forall i j, i < d -> j < d -> sumR d (fun p => (snd r p i * snd r p j)%R) = if i =? j then 1%R else 0%R) /\
  (forall p j, p < d -> j < d -> sumR d (fun q => (A p q * snd r q j)%R) = (fst r j * snd r p j)%R).
Definition eigh_cplx_ok (d : nat) (A : nat -> nat -> C) (r : (nat -> R) * (nat -> nat -> C)) : Prop :=
  (forall i j, i <= j -> j < d -> (fst r i <= fst r j)%R) /\
  (forall i j, i < d -> j < d -> rsum (fun p => rmul (conj (snd r p i)) (snd r p j)) (seq 0 d) = if i =? j then r1 else r0) /\
  (forall p j, p < d -> j < d -> rsum (fun q => rmul (A p q) (snd r q j)) (seq 0 d) = rmul (rC (fst r j)) (snd r p j)).

(** a convex set of positions is an interval *)
Lemma filter_interval : forall (P : nat -> bool) d, (forall i j k, i <= j <= k -> k < d -> P i = true -> P k = true -> P j = true) ->
  exists f w, filter P (seq 0 d) = seq f w /\ f + w <= d.
Proof.
  intros P d. induction d as [|d IH]; intros CV.
  - exists 0, 0. auto.
  - destruct IH as (f & w & E & B). { intros i j k H1 H2. apply CV; auto. }
    rewrite seq_S, filter_app, E. cbn [filter plus]. destruct (P d) eqn:Pd.
    + destruct w as [|w].
      * exists d, 1. cbn. split; auto. lia.
      * assert (f + S w = d).
        { destruct (Nat.eq_dec (f + S w) d); auto. exfalso.
          assert (Pf : P f = true). { assert (In f (filter P (seq 0 d))) by (rewrite E; apply in_seq; lia). apply filter_In in H. tauto. }
          assert (Q : P (f + S w) = true) by (apply (CV f (f + S w) d); auto; lia).
          assert (In (f + S w) (filter P (seq 0 d))) by (apply filter_In; split; [apply in_seq; lia|auto]).
          rewrite E in H. apply in_seq in H. lia. }
        exists f, (S (S w)). split; [|lia]. rewrite <- H. now rewrite (seq_S (S w)).
    + exists f, w. rewrite app_nil_r. split; auto.
Qed.
Lemma last_seq : forall w f x, last (seq f (S w)) x = f + w.
Proof.
  induction w; intros f x; [cbn; lia|]. change (seq f (S (S w))) with (f :: seq (S f) (S w)).
  change (last (f :: seq (S f) (S w)) x) with (last (seq (S f) (S w)) x). rewrite IHw. lia.
Qed.

Section Build.
Variables (n : nat) (indexing : string) (si : SI) (c : nat).
Hypothesis SI0 : spin_indexing n indexing si.
Hypothesis Hc : c <= n.
Let M := smax n c.
Let a := low_level n c.
Let dd := dd n si c.
Let Uu := Uu n si c.
Let d := dd a.
Variable eigh_real : nat -> (nat -> nat -> R) -> (nat -> R) * (nat -> nat -> R).
Variable eigh_cplx : nat -> (nat -> nat -> C) -> (nat -> R) * (nat -> nat -> C).
Variable ham : nat -> nat -> C.
Variable S2 : nat -> nat -> Z.
Hypothesis SQ : operator_ssquare c (zZ M a) si = Some (SMat d d S2).
Hypothesis SAPP : forall p v, p < d -> sumR d (fun q => (IZR (S2 p q) * v q)%R) = ssq M dd Uu a v p.
Let ER := eigh_real d (fun p q => IZR (S2 p q)).
Let val := fst ER.
Let vec := snd ER.
Hypothesis ROK : eigh_real_ok d (fun p q => IZR (S2 p q)) ER.

Lemma TWR : tower M dd Uu. Proof. exact (spin_tower n indexing si c SI0 Hc). Qed.
Lemma atwice : M = 2 * a \/ M = 2 * a + 1. Proof. exact (low_twice n c Hc). Qed.
Lemma aM : a <= M. Proof. destruct atwice; lia. Qed.
Lemma lo_a : lo M a = M - a. Proof. unfold lo. destruct atwice; lia. Qed.

Definition vcol (j : nat) : nat -> R := fun p => vec p j.
Lemma vON : orthonormal d d vcol.
Proof. intros i j Hi Hj. unfold ip, vcol, delta. destruct ROK as (_ & O & _). apply O; auto. Qed.
Lemma vEIG : forall j, j < d -> eig M dd Uu a (val j) (vcol j).
Proof. intros j Hj p Hp. rewrite <- SAPP by auto. destruct ROK as (_ & _ & E). apply E; auto. Qed.
Lemma vNZ : forall j, j < d -> nonzero d (vcol j).
Proof.
  intros j Hj. destruct (nonzero_dec d (vcol j)) as [|Z]; auto. exfalso. pose proof (vON j j Hj Hj) as E. unfold delta in E. rewrite Nat.eqb_refl in E.
  unfold ip in E. rewrite sumR_0 in E; [lra|]. intros i Hi. rewrite Z by auto. ring.
Qed.

(** the label the code computes *)
Definition lab (j : nat) : nat := Z.to_nat ((rint (-1 + sqrt (1 + val j)) + Z.of_nat M) / 2).
Lemma lab_ok : forall j, j < d -> lo M a <= lab j <= M /\ val j = lam M (lab j) /\ rint (-1 + sqrt (1 + val j)) = zZ M (lab j).
Proof.
  intros j Hj. destruct (spectrum M dd Uu TWR a (val j) (vcol j) aM (vEIG j Hj) (vNZ j Hj)) as (m & B1 & B2 & E).
  assert (RI : rint (-1 + sqrt (1 + val j)) = zZ M m).
  { apply rint_Z. rewrite zZ_zk. rewrite E. unfold lam.
    replace (1 + zk M m * (zk M m + 2))%R with ((zk M m + 1) * (zk M m + 1))%R by ring.
    rewrite sqrt_square; [ring|]. pose proof (zk_low M m ltac:(lia)). lra. }
  assert (LJ : lab j = m).
  { unfold lab. rewrite RI. unfold zZ. replace (2 * Z.of_nat m - Z.of_nat M + Z.of_nat M)%Z with (Z.of_nat m * 2)%Z by lia.
    rewrite Z.div_mul by lia. lia. }
  rewrite LJ. split; [unfold lo; lia|]. auto.
Qed.
Lemma lab_mono : forall i j, i <= j -> j < d -> lab i <= lab j.
Proof.
  intros i j Hij Hj. destruct (lab_ok i ltac:(lia)) as (B1 & E1 & _). destruct (lab_ok j Hj) as (B2 & E2 & _).
  destruct (Nat.le_gt_cases (lab i) (lab j)) as [|L]; auto. exfalso. destruct ROK as (ASC & _). pose proof (ASC i j Hij Hj) as Q.
  change (val i <= val j)%R in Q. pose proof (lam_gap M (lab j) (lab i)) as G. rewrite lo_a in B2. pose proof aM. destruct atwice;
  (assert (0 < lam M (lab i) - zk M (lab j) * (zk M (lab j) + 2))%R by (apply G; lia); rewrite E1, E2 in Q; unfold lam in *; lra).
Qed.

Definition cls (m : nat) : list nat := filter (fun j => lab j =? m) (seq 0 d).
Definition width (m : nat) : nat := length (cls m).
Lemma positions_cls : forall m, positions (labels_of eigh_real d S2) (zZ M m) = cls m.
Proof.
  intros m. unfold positions, cls, labels_of. rewrite map_length, seq_length. apply filter_ext_in. intros j Hj. apply in_seq in Hj.
  rewrite nth_map_seq by lia. change (fst (eigh_real d (fun p q => IZR (S2 p q))) j) with (val j).
  destruct (lab_ok j ltac:(lia)) as (_ & _ & ->). destruct (Nat.eqb_spec (lab j) m) as [->|N].
  - apply Z.eqb_refl.
  - apply Z.eqb_neq. unfold zZ. lia.
Qed.
Lemma alive_split : forall k, length (alive dd a lab k) = width k + length (alive dd a lab (S k)).
Proof.
  intros k. unfold alive, width, cls. fold d. induction (seq 0 d) as [|j l IH]; auto. cbn [filter].
  destruct (Nat.leb_spec k (lab j)); destruct (Nat.leb_spec (S k) (lab j)); destruct (Nat.eqb_spec (lab j) k); cbn [length]; lia.
Qed.
Lemma alive_len : forall k, a <= k -> k <= S M -> length (alive dd a lab k) = dd k.
Proof.
  intros k H1 H2. destruct (Nat.eq_dec k (S M)) as [->|].
  - destruct TWR as [T0 _]. rewrite T0. unfold alive. fold d. apply length_zero_iff_nil.
    destruct (filter _ _) as [|j l] eqn:F; auto. exfalso. assert (In j (j :: l)) by now left. rewrite <- F in H.
    apply filter_In in H. destruct H as [H3 H4]. apply in_seq in H3. apply Nat.leb_le in H4. pose proof (lab_ok j ltac:(lia)). lia.
  - destruct (ladder_basis M dd Uu TWR a vcol lab aM) with (i := k - a) as [L _].
    + destruct atwice; lia.
    + intros j Hj. destruct (lab_ok j Hj) as (B & _). pose proof lo_a. destruct atwice; lia.
    + apply vON.
    + intros j Hj. destruct (lab_ok j Hj) as (_ & <- & _). apply vEIG; auto.
    + lia.
    + replace (a + (k - a)) with k in L by lia. exact L.
Qed.
Lemma width_val : forall m, a <= m <= M -> width m + dd (S m) = dd m.
Proof. intros m Hm. pose proof (alive_split m) as A. rewrite !alive_len in A by lia. lia. Qed.
Lemma width_pos : forall m, lo M a <= m <= M -> 1 <= width m.
Proof.
  intros m Hm. pose proof lo_a as L. pose proof (dd_strict n indexing si c SI0 Hc m) as D. fold M dd in D.
  pose proof aM. pose proof (width_val m) as W. destruct atwice; (assert (dd (S m) < dd m) by (apply D; lia); assert (width m + dd (S m) = dd m) by (apply W; lia); lia).
Qed.
(** total of the widths at level k *)
Lemma width_sum : forall w m, m + w = S M -> a <= m -> sumn (map width (seq m w)) = dd m.
Proof.
  induction w as [|w IH]; intros m Hw Ha.
  - assert (m = S M) by lia. subst m. destruct TWR as [T0 _]. now rewrite T0.
  - change (width m + sumn (map width (seq (S m) w)) = dd m). rewrite IH by lia. apply width_val. lia.
Qed.
Lemma level_sum : forall k, k <= M -> sumn (map width (seq (lo M k) (rowlen M k))) = dd k.
Proof.
  intros k Hk. pose proof (lo_le M k Hk). rewrite width_sum.
  - unfold lo. destruct (Nat.max_spec k (M - k)) as [[_ ->]|[_ ->]]; auto. symmetry. apply (dd_sym n indexing si c SI0 Hc). auto.
  - unfold rowlen. lia.
  - unfold lo. destruct atwice; lia.
Qed.

Lemma cls_interval : forall m, exists f, cls m = seq f (width m) /\ f + width m <= d.
Proof.
  intros m. destruct (filter_interval (fun j => lab j =? m) d) as (f & w & E & B).
  - intros i j k H1 H2 P1 P2. apply Nat.eqb_eq in P1, P2. apply Nat.eqb_eq.
    pose proof (lab_mono i j ltac:(lia) ltac:(lia)). pose proof (lab_mono j k ltac:(lia) ltac:(lia)). lia.
  - exists f. assert (W : width m = w) by (unfold width, cls; rewrite E; apply seq_length). rewrite W. auto.
Qed.
Definition first (m : nat) : nat := hd 0 (cls m).
Definition VV (m : nat) : rarr := mkRArr d (width m) (fun p j => vec p (first m + j)).
Lemma first_ok : forall m j, lo M a <= m <= M -> j < width m -> first m + j < d /\ lab (first m + j) = m.
Proof.
  intros m j Hm Hj. destruct (cls_interval m) as (f & E & B).
  assert (F : first m = f). { unfold first. rewrite E. destruct (width m); [lia|reflexivity]. }
  rewrite F. split; [lia|]. assert (In (f + j) (cls m)) by (rewrite E; apply in_seq; lia).
  apply filter_In in H. now apply Nat.eqb_eq.
Qed.
Lemma slice_ok : forall m, lo M a <= m <= M -> ssq_slice d vec (positions (labels_of eigh_real d S2) (zZ M m)) = Some (VV m).
Proof.
  intros m Hm. rewrite positions_cls. destruct (cls_interval m) as (f & E & B). pose proof (width_pos m Hm) as W.
  unfold VV, first. rewrite E. destruct (width m) as [|w]; [lia|]. unfold ssq_slice. cbn [seq hd].
  change (f :: seq (S f) w) with (seq f (S w)). rewrite last_seq. replace (S (f + w) - f) with (S w) by lia. reflexivity.
Qed.
(** columns of the slices *)
Lemma VV_eig : forall m t, lo M a <= m <= M -> t < width m -> eig M dd Uu a (lam M m) (fun p => ra_at (VV m) p t).
Proof.
  intros m t Hm Ht. destruct (first_ok m t Hm Ht) as (B & E). cbn [ra_at VV].
  change (eig M dd Uu a (lam M m) (vcol (first m + t))). destruct (lab_ok _ B) as (_ & E2 & _). rewrite E in E2. rewrite <- E2. apply vEIG. auto.
Qed.
Lemma VV_on : forall m t t', lo M a <= m <= M -> t < width m -> t' < width m ->
  sumR d (fun p => (ra_at (VV m) p t * ra_at (VV m) p t')%R) = delta t t'.
Proof.
  intros m t t' Hm Ht Ht'. destruct (first_ok m t Hm Ht) as (B & _). destruct (first_ok m t' Hm Ht') as (B' & _).
  pose proof (vON _ _ B B') as O. unfold ip, vcol in O. cbn [ra_at VV]. etransitivity; [exact O|]. unfold delta.
  destruct (Nat.eqb_spec t t') as [->|N]; [now rewrite Nat.eqb_refl|]. now rewrite (proj2 (Nat.eqb_neq _ _)) by lia.
Qed.

(** ** the start of the ladders *)
Definition EC (m : nat) := eigh_cplx (width m) (project d ham (ra_at (VV m))).
Definition start (m : nat) : cell := mkCell d (width m) (fst (EC m)) (expand (width m) (ra_at (VV m)) (snd (EC m))).
Definition rcol (m j : nat) : nat -> R := fun p => re (cl_vec (start m) p j).
Definition icol (m j : nat) : nat -> R := fun p => im (cl_vec (start m) p j).
Lemma eig_comb : forall k l w (v : nat -> nat -> R) (x : nat -> R), (forall t, t < w -> eig M dd Uu k l (v t)) ->
  eig M dd Uu k l (fun p => sumR w (fun t => (v t p * x t)%R)).
Proof.
  intros k l w v x H p Hp.
  assert (A : ssq M dd Uu k (fun p => sumR w (fun t => (v t p * x t)%R)) p = sumR w (fun t => (ssq M dd Uu k (v t) p * x t)%R)).
  { clear Hp H. induction w as [|w IH].
    - cbn [sumR]. unfold ssq, dn, up. rewrite Rmult_0_r, Rplus_0_r. apply sumR_0. intros i _. rewrite sumR_0 by (intros; ring). ring.
    - cbn [sumR]. rewrite <- IH. unfold ssq.
      assert (L : dn dd Uu k (up dd Uu k (fun p0 => (sumR w (fun t => v t p0 * x t) + v w p0 * x w)%R)) p =
        (dn dd Uu k (up dd Uu k (fun p0 => sumR w (fun t => v t p0 * x t))) p + x w * dn dd Uu k (up dd Uu k (v w)) p)%R).
      { rewrite (dn_ext dd Uu k _ (fun q => (1 * up dd Uu k (fun p0 => sumR w (fun t => v t p0 * x t)) q + x w * up dd Uu k (v w) q)%R)).
        - rewrite dn_lin. ring.
        - intros i _. rewrite <- up_lin. apply up_ext. intros. ring. }
      rewrite L. ring. }
  rewrite A. rewrite <- sumR_mul_l. apply sumR_ext. intros t Ht. rewrite (H t Ht p Hp). ring.
Qed.
Lemma rcol_eig : forall m j, lo M a <= m <= M -> eig M dd Uu a (lam M m) (rcol m j).
Proof.
  intros m j Hm. pose proof (eig_comb a (lam M m) (width m) (fun t p => ra_at (VV m) p t) (fun t => re (snd (EC m) t j)) (fun t Ht => VV_eig m t Hm Ht)) as E.
  intros p Hp. pose proof (E p Hp) as E'.
  assert (X : forall q, rcol m j q = sumR (width m) (fun t => (ra_at (VV m) q t * re (snd (EC m) t j))%R)).
  { intros q. unfold rcol, start. cbn [cl_vec]. unfold expand. rewrite re_rsum. apply sumR_ext. intros. apply re_rC_mul. }
  rewrite X, <- E'. apply ssq_ext; auto.
Qed.
Lemma icol_eig : forall m j, lo M a <= m <= M -> eig M dd Uu a (lam M m) (icol m j).
Proof.
  intros m j Hm. pose proof (eig_comb a (lam M m) (width m) (fun t p => ra_at (VV m) p t) (fun t => im (snd (EC m) t j)) (fun t Ht => VV_eig m t Hm Ht)) as E.
  intros p Hp. pose proof (E p Hp) as E'.
  assert (X : forall q, icol m j q = sumR (width m) (fun t => (ra_at (VV m) q t * im (snd (EC m) t j))%R)).
  { intros q. unfold icol, start. cbn [cl_vec]. unfold expand. rewrite im_rsum. apply sumR_ext. intros. apply im_rC_mul. }
  rewrite X, <- E'. apply ssq_ext; auto.
Qed.

(** ** the cells *)
Fixpoint upc (i m : nat) : cell :=
  match i with
  | 0 => start m
  | S i' => match apply_op (operator_sp c (zZ M (a + i')) si) (factor n c m (a + i') (S (a + i'))) (upc i' m) with Some y => y | None => start m end
  end.
Fixpoint dnc (i m : nat) : cell :=
  match i with
  | 0 => start m
  | S i' => match apply_op (operator_sm c (zZ M (a - i')) si) (factor n c m (a - i') (a - S i')) (dnc i' m) with Some y => y | None => start m end
  end.
Definition EE (k m : nat) : cell := if a <=? k then upc (k - a) m else dnc (a - k) m.

Lemma upc_ok : forall i m, a + i <= M -> a + i <= m -> lo M a <= m <= M ->
  cl_rows (upc i m) = dd (a + i) /\ cl_cols (upc i m) = width m /\ cl_vals (upc i m) = fst (EC m) /\
  (forall i', i = S i' -> apply_op (operator_sp c (zZ M (a + i')) si) (factor n c m (a + i') (S (a + i'))) (upc i' m) = Some (upc i m)) /\
  forall p j, p < dd (a + i) -> re (cl_vec (upc i m) p j) = chain M dd Uu a (lam M m) (rcol m j) i p /\
                                im (cl_vec (upc i m) p j) = chain M dd Uu a (lam M m) (icol m j) i p.
Proof.
  induction i as [|i IH]; intros m Hi Him Hm.
  - cbn [upc chain]. rewrite Nat.add_0_r. cbn [start cl_rows cl_cols cl_vals]. repeat split; auto; try discriminate.
  - destruct (IH m ltac:(lia) ltac:(lia) Hm) as (R & W & VL & _ & V).
    destruct (sp_form n indexing si c SI0 Hc (a + i)) as (sp & sm & E & _). { fold M. lia. } fold M dd in E.
    assert (AP : apply_op (operator_sp c (zZ M (a + i)) si) (factor n c m (a + i) (S (a + i))) (upc i m) = Some (upc (S i) m)).
    { cbn [upc]. rewrite E. cbn [apply_op]. rewrite R, Nat.eqb_refl. reflexivity. }
    assert (UE : forall p q, Uu (a + i) p q = IZR (sp p q)) by (intros; unfold Uu, MultipletsSpin.Uu; fold M; rewrite E; reflexivity).
    assert (FC : factor n c m (a + i) (S (a + i)) = fct M (lam M m) (a + i)).
    { unfold factor, fct, lam. fold M. f_equal. rewrite minus_IZR, !mult_IZR, plus_IZR, !zZ_zk, zk_S. reflexivity. }
    split; [|split; [|split; [|split]]].
    1-3: (cbn [upc]; rewrite E; cbn [apply_op]; rewrite R, Nat.eqb_refl; cbn [cl_rows cl_cols cl_vals]; rewrite ?Nat.add_succ_r; auto).
    + intros i' Ei. injection Ei as <-. exact AP.
    + intros p j Hp. cbn [chain]. unfold rung, up. cbn [upc]. rewrite E. cbn [apply_op]. rewrite R, Nat.eqb_refl. cbn [cl_vec].
      rewrite re_rC_mul, im_rC_mul, re_rsum, im_rsum, FC. split; unfold Rdiv; rewrite Rmult_comm; f_equal; apply sumR_ext; intros q Hq;
      rewrite ?re_rC_mul, ?im_rC_mul, UE; destruct (V q j Hq) as [V1 V2]; rewrite ?V1, ?V2; reflexivity.
Qed.
Lemma dnc_ok : forall i m, i <= a -> M - (a - i) <= m <= M ->
  cl_rows (dnc i m) = dd (a - i) /\ cl_cols (dnc i m) = width m /\ cl_vals (dnc i m) = fst (EC m) /\
  (forall i', i = S i' -> apply_op (operator_sm c (zZ M (a - i')) si) (factor n c m (a - i') (a - S i')) (dnc i' m) = Some (dnc i m)) /\
  forall p j, p < dd (a - i) -> re (cl_vec (dnc i m) p j) = chain M (drev M dd) (Urev M Uu) (M - a) (lam M m) (rcol m j) i p /\
                                im (cl_vec (dnc i m) p j) = chain M (drev M dd) (Urev M Uu) (M - a) (lam M m) (icol m j) i p.
Proof.
  pose proof aM as HaM. induction i as [|i IH]; intros m Hi Hm.
  - cbn [dnc chain]. rewrite Nat.sub_0_r. cbn [start cl_rows cl_cols cl_vals]. repeat split; auto; try discriminate.
  - destruct (IH m ltac:(lia) ltac:(lia)) as (R & W & VL & _ & V).
    destruct (sp_form n indexing si c SI0 Hc (a - S i)) as (sp & sm & E & E' & T). { fold M. lia. } fold M dd in E, E', T.
    assert (Z1 : S (a - S i) = a - i) by lia. rewrite Z1 in E, E', T.
    assert (AP : apply_op (operator_sm c (zZ M (a - i)) si) (factor n c m (a - i) (a - S i)) (dnc i m) = Some (dnc (S i) m)).
    { cbn [dnc]. rewrite E'. cbn [apply_op]. rewrite R, Nat.eqb_refl. reflexivity. }
    assert (UE : forall p q, Uu (a - S i) p q = IZR (sp p q)) by (intros; unfold Uu, MultipletsSpin.Uu; fold M; rewrite E; reflexivity).
    assert (FC : factor n c m (a - i) (a - S i) = fct M (lam M m) (M - a + i)).
    { unfold factor, fct, lam. fold M. f_equal. rewrite minus_IZR, !mult_IZR, plus_IZR, !zZ_zk. f_equal.
      replace (M - a + i) with (M - (a - i)) by lia. rewrite zk_rev by lia. rewrite <- Z1, zk_S. ring. }
    split; [|split; [|split; [|split]]].
    1-3: (cbn [dnc]; rewrite E'; cbn [apply_op]; rewrite R, Nat.eqb_refl; cbn [cl_rows cl_cols cl_vals]; auto).
    + intros i' Ei. injection Ei as <-. exact AP.
    + intros p j Hp. cbn [chain]. unfold rung. rewrite !up_rev by lia. unfold dn. replace (M - 1 - (M - a + i)) with (a - S i) by lia. rewrite Z1.
      cbn [dnc]. rewrite E'. cbn [apply_op]. rewrite R, Nat.eqb_refl. cbn [cl_vec].
      rewrite re_rC_mul, im_rC_mul, re_rsum, im_rsum, FC. split; unfold Rdiv; rewrite Rmult_comm; f_equal; apply sumR_ext; intros q Hq;
      rewrite ?re_rC_mul, ?im_rC_mul, UE; destruct (V q j Hq) as [V1 V2]; rewrite ?V1, ?V2, (T q p) by auto; reflexivity.
Qed.

(** every cell: shape, and columns whose real and imaginary parts are eigenvectors of S^2 *)
Lemma drev_in : forall k, k <= M -> drev M dd (M - k) = dd k.
Proof. intros k Hk. unfold drev. rewrite (proj2 (Nat.leb_le _ _)) by lia. f_equal. lia. Qed.
Lemma TWV : tower M (drev M dd) (Urev M Uu). Proof. apply tower_rev. apply TWR. Qed.
Lemma rev_eig : forall l u k, k <= M -> (eig M (drev M dd) (Urev M Uu) (M - k) l u <-> eig M dd Uu k l u).
Proof.
  intros l u k Hk. unfold eig. rewrite drev_in by auto. split; intros H p Hp.
  - rewrite <- (H p Hp). rewrite (ssq_rev M dd Uu TWR (M - k)) by (replace (M - (M - k)) with k by lia; auto; lia). f_equal. lia.
  - rewrite <- (H p Hp). rewrite (ssq_rev M dd Uu TWR (M - k)) by (replace (M - (M - k)) with k by lia; auto; lia). f_equal. lia.
Qed.

Theorem cell_spec : forall k m, k <= M -> lo M k <= m <= M ->
  let x := EE k m in
  cl_rows x = dd k /\ cl_cols x = width m /\ cl_vals x = fst (EC m) /\
  (forall j, eig M dd Uu k (lam M m) (fun p => re (cl_vec x p j)) /\ eig M dd Uu k (lam M m) (fun p => im (cl_vec x p j))) /\
  (forall (u u' : bool) j j', 
     ip (dd k) (fun p => part u (cl_vec x p j)) (fun p => part u' (cl_vec x p j')) =
     ip d (fun p => part u (cl_vec (start m) p j)) (fun p => part u' (cl_vec (start m) p j'))).
Proof.
  intros k m Hk Hm x. pose proof aM as HaM. pose proof lo_a as La.
  assert (Hlo : lo M a <= m) by (unfold lo in *; destruct atwice; lia).
  assert (EXT : forall l u v, (forall p, p < dd k -> u p = v p) -> eig M dd Uu k l v -> eig M dd Uu k l u).
  { intros l u v H E p Hp. rewrite H by auto. rewrite <- (E p Hp). apply ssq_ext; auto. }
  unfold x, EE. destruct (Nat.leb_spec a k) as [L|L].
  - destruct (upc_ok (k - a) m) as (R & W & VL & _ & V); [lia|unfold lo in Hm; lia|lia|].
    replace (a + (k - a)) with k in * by lia. split; auto. split; auto. split; auto.
    assert (CE : forall u, eig M dd Uu a (lam M m) u -> eig M dd Uu k (lam M m) (chain M dd Uu a (lam M m) u (k - a))).
    { intros u E. pose proof (chain_eig_any M dd Uu TWR a (k - a) (lam M m) u) as Q. replace (a + (k - a)) with k in Q by lia. auto. }
    split.
    + intros j. split.
      * apply (EXT _ _ _ (fun p Hp => proj1 (V p j Hp))). apply CE, rcol_eig. lia.
      * apply (EXT _ _ _ (fun p Hp => proj2 (V p j Hp))). apply CE, icol_eig. lia.
    + intros u u' j j'.
      assert (PC : forall b j p, p < dd k -> part b (cl_vec (upc (k - a) m) p j) = chain M dd Uu a (lam M m) (if b then rcol m j else icol m j) (k - a) p).
      { intros b j0 p Hp. destruct b; apply (V p j0 Hp). }
      rewrite (ip_ext (dd k) _ (chain M dd Uu a (lam M m) (if u then rcol m j else icol m j) (k - a)) _ (chain M dd Uu a (lam M m) (if u' then rcol m j' else icol m j') (k - a)))
        by (intros; apply PC; auto).
      pose proof (chain_ip M dd Uu TWR a (k - a) m (if u then rcol m j else icol m j) (if u' then rcol m j' else icol m j')) as Q.
      replace (a + (k - a)) with k in Q by lia. rewrite Q; [destruct u, u'; reflexivity|destruct atwice; lia|unfold lo in Hm; lia|lia| |];
      [destruct u|destruct u']; (apply rcol_eig || apply icol_eig); lia.
  - destruct (dnc_ok (a - k) m) as (R & W & VL & _ & V); [lia|unfold lo in Hm; lia|].
    replace (a - (a - k)) with k in * by lia. split; auto. split; auto. split; auto.
    assert (CE : forall u, eig M dd Uu a (lam M m) u -> eig M dd Uu k (lam M m) (chain M (drev M dd) (Urev M Uu) (M - a) (lam M m) u (a - k))).
    { intros u E. apply rev_eig in E; auto. pose proof (chain_eig_any M _ _ TWV (M - a) (a - k) (lam M m) u ltac:(lia) E) as Q.
      replace (M - a + (a - k)) with (M - k) in Q by lia. apply rev_eig in Q; auto. }
    split.
    + intros j. split.
      * apply (EXT _ _ _ (fun p Hp => proj1 (V p j Hp))). apply CE, rcol_eig. lia.
      * apply (EXT _ _ _ (fun p Hp => proj2 (V p j Hp))). apply CE, icol_eig. lia.
    + intros u u' j j'.
      assert (PC : forall b j p, p < dd k -> part b (cl_vec (dnc (a - k) m) p j) =
        chain M (drev M dd) (Urev M Uu) (M - a) (lam M m) (if b then rcol m j else icol m j) (a - k) p).
      { intros b j0 p Hp. destruct b; apply (V p j0 Hp). }
      rewrite (ip_ext (dd k) _ (chain M (drev M dd) (Urev M Uu) (M - a) (lam M m) (if u then rcol m j else icol m j) (a - k)) _
         (chain M (drev M dd) (Urev M Uu) (M - a) (lam M m) (if u' then rcol m j' else icol m j') (a - k))) by (intros; apply PC; auto).
      pose proof (chain_ip M _ _ TWV (M - a) (a - k) m (if u then rcol m j else icol m j) (if u' then rcol m j' else icol m j')) as Q.
      replace (M - a + (a - k)) with (M - k) in Q by lia. rewrite !drev_in in Q by auto.
      rewrite Q; [destruct u, u'; reflexivity|destruct atwice; lia|unfold lo in Hm; lia|lia| |];
      apply rev_eig; auto; [destruct u|destruct u']; (apply rcol_eig || apply icol_eig); lia.
Qed.

(** ** running the code *)
Theorem run : exists s, eigenstates_ssq_all eigh_real eigh_cplx c ham si = Some s /\ forall k, k <= M -> fits n c EE s k.
Proof.
  assert (En : si_nsingle si = n) by (destruct SI0 as (_ & _ & _ & ->); apply init_n).
  destruct SI0 as (Hn & Hev & Hix & _). pose proof aM as HaM.
  destruct (exec_ok n c si En Hev Hc EE) with (eigh_real := eigh_real) (eigh_cplx := eigh_cplx) (d := d) (S2 := S2) (ham := ham) (V := VV) (statelst := blk n si c a)
    as (s & E & _ & F).
  - intros k m Hk Hm. fold M a in Hk, Hm |- *. unfold EE. rewrite !(proj2 (Nat.leb_le _ _)) by lia.
    destruct (upc_ok (S k - a) m) as (_ & _ & _ & AP & _); [lia|lia|unfold lo; destruct atwice; lia|].
    specialize (AP (k - a) ltac:(lia)). replace (a + (k - a)) with k in AP by lia. exact AP.
  - intros k m Hk Hm. fold M a in Hk, Hm |- *. unfold EE. rewrite (proj2 (Nat.leb_gt a k)) by lia.
    destruct (dnc_ok (a - k) m) as (_ & _ & _ & AP & _); [lia|lia|].
    specialize (AP (a - S k) ltac:(lia)). replace (a - (a - S k)) with (S k) in AP by lia. replace (a - S (a - S k)) with k in AP by lia.
    destruct (Nat.leb_spec a (S k)) as [L|L]; [|exact AP]. assert (S k = a) by lia. replace (a - S k) with 0 in AP by lia.
    replace (S k - a) with 0 by lia. exact AP.
  - fold M a. apply (blk_lst n indexing si c SI0 Hc). auto.
  - fold a. unfold d, dd. symmetry. apply dd_in. auto.
  - exact SQ.
  - fold M a. intros m Hm. apply slice_ok. auto.
  - fold M a. intros m Hm. unfold EE. rewrite (proj2 (Nat.leb_le a a)) by lia. replace (a - a) with 0 by lia. reflexivity.
  - exists s. split; auto.
Qed.
End Build.
