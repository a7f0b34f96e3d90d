(** Proofs about the discrete Fourier transform and the kernel of the Hilbert transform. *)
From Coq Require Import List Arith Lia ZArith Bool Reals Lra Ring.
From Verif Require Import Base CRing Hilbert.
Import ListNotations.
Local Notation Cr := (Cx RRing).
Local Open Scope R_scope.

Add Ring Cring : (rth (Cx RRing)).
Local Ltac cr := apply cplx_eq; simpl; try ring.

(** ** Roots of unity *)
Lemma cis_add : forall a b, cis (a + b) = rmul (cis a) (cis b).
Proof. intros. unfold cis. apply cplx_eq; simpl. - rewrite cos_plus. ring. - rewrite sin_plus. ring. Qed.
Lemma cis_0 : cis 0 = r1.
Proof. unfold cis. rewrite cos_0, sin_0. reflexivity. Qed.
Lemma cis_period : forall z : Z, cis (2 * PI * IZR z) = r1.
Proof.
  assert (P : forall n : nat, cis (2 * PI * INR n) = r1).
  { intros n. unfold cis. replace (2 * PI * INR n) with (0 + 2 * INR n * PI) by ring.
    rewrite cos_period, sin_period, cos_0, sin_0. reflexivity. }
  intros z. destruct z as [|p|p].
  - rewrite Rmult_0_r. apply cis_0.
  - rewrite <- (P (Pos.to_nat p)). f_equal. f_equal. rewrite INR_IZR_INZ. f_equal. lia.
  - assert (Q := P (Pos.to_nat p)). assert (E : cis (2 * PI * IZR (Z.neg p) + 2 * PI * INR (Pos.to_nat p)) = r1).
    { rewrite INR_IZR_INZ. rewrite <- Rmult_plus_distr_l, <- plus_IZR. replace (Z.neg p + Z.of_nat (Pos.to_nat p))%Z with 0%Z by lia.
      rewrite Rmult_0_r. apply cis_0. }
    rewrite cis_add, Q in E. rewrite <- E. ring.
Qed.
Lemma cis_one : forall x, cis (2 * PI * x) = r1 -> exists z, x = IZR z.
Proof.
  intros x E. apply (f_equal re) in E. simpl in E.
  replace (2 * PI * x) with (2 * (PI * x)) in E by ring. rewrite cos_2a_sin in E.
  assert (S : sin (PI * x) * sin (PI * x) = 0) by lra.
  apply Rmult_integral in S. assert (S' : sin (PI * x) = 0) by tauto.
  destruct (sin_eq_0_0 _ S') as (k & Hk). exists k. assert (P := PI_RGT_0). apply Rmult_eq_reg_l with PI; lra.
Qed.
Lemma cr_integral : forall a b : Cr, rmul a b = r0 -> a <> r0 -> b = r0.
Proof.
  intros [x y] [u v] E N. assert (E1 := f_equal re E). assert (E2 := f_equal im E). simpl in E1, E2.
  assert (D : x * x + y * y <> 0).
  { intros D. apply N. assert (x = 0) by nra. assert (y = 0) by nra. subst. reflexivity. }
  assert (U : (x * x + y * y) * u = 0).
  { replace ((x * x + y * y) * u) with (x * (x * u - y * v) + y * (x * v + y * u)) by ring. rewrite E1, E2. ring. }
  assert (V : (x * x + y * y) * v = 0).
  { replace ((x * x + y * y) * v) with (x * (x * v + y * u) - y * (x * u - y * v)) by ring. rewrite E1, E2. ring. }
  apply Rmult_integral in U. apply Rmult_integral in V. apply cplx_eq; simpl; tauto.
Qed.
Fixpoint cpow (w : Cr) (k : nat) : Cr := match k with 0%nat => r1 | S k => rmul w (cpow w k) end.
Lemma cpow_cis : forall t k, cpow (cis t) k = cis (t * INR k).
Proof.
  induction k. - simpl. rewrite Rmult_0_r, cis_0. reflexivity.
  - cbn [cpow]. rewrite IHk, S_INR, <- cis_add. f_equal. ring.
Qed.
Lemma geometric : forall w m s, rmul (rsub w r1) (rsum (cpow w) (seq s m)) = rsub (cpow w (s + m)) (cpow w s).
Proof.
  induction m; intros s; cbn [seq rsum].
  - rewrite Nat.add_0_r. ring.
  - assert (E := IHm (S s)). replace (S s + m)%nat with (s + S m)%nat in E by lia.
    transitivity (radd (rmul (rsub w r1) (cpow w s)) (rmul (rsub w r1) (rsum (cpow w) (seq (S s) m)))). { ring. }
    rewrite E. cbn [cpow]. ring.
Qed.
Lemma rsum_const_R : forall {A} (l : list A) (v : Cr), rsum (fun _ => v) l = rmul (cR (INR (length l))) v.
Proof.
  induction l; intros v.
  - simpl. unfold cR, ofR. cr.
  - cbn [rsum length]. rewrite IHl, S_INR. unfold cR, ofR. destruct v. cr.
Qed.
(** the sum over the roots of unity *)
Lemma roots_sum : forall m (z : Z), (0 < m)%nat ->
  rsum (fun k => cis (2 * PI * IZR z * INR k / INR m)) (seq 0 m) =
  if Z.eq_dec (z mod Z.of_nat m) 0 then cR (INR m) else r0.
Proof.
  intros m z Hm. assert (M : INR m <> 0) by (apply not_0_INR; lia).
  rewrite (rsum_ext _ _ _ (fun k => cpow (cis (2 * PI * (IZR z / INR m))) k)).
  2:{ intros k _. rewrite cpow_cis. f_equal. field. auto. }
  change (rsum (fun k => cpow (cis (2 * PI * (IZR z / INR m))) k) (seq 0 m)) with (rsum (cpow (cis (2 * PI * (IZR z / INR m)))) (seq 0 m)).
  destruct (Z.eq_dec (z mod Z.of_nat m) 0) as [D|D].
  - assert (E : z = (Z.of_nat m * (z / Z.of_nat m))%Z). { apply Z.div_exact; lia. }
    rewrite (rsum_ext _ _ _ (fun _ => r1)).
    + rewrite rsum_const_R, seq_length. ring.
    + intros k _. rewrite cpow_cis. rewrite E at 1. rewrite mult_IZR, <- INR_IZR_INZ.
      replace (2 * PI * (INR m * IZR (z / Z.of_nat m) / INR m) * INR k) with (2 * PI * IZR (z / Z.of_nat m * Z.of_nat k)).
      * apply cis_period. * rewrite mult_IZR, <- INR_IZR_INZ. field. auto.
  - apply cr_integral with (a := rsub (cis (2 * PI * (IZR z / INR m))) r1).
    + rewrite geometric. simpl (0 + m)%nat. rewrite cpow_cis. cbn [cpow].
      replace (2 * PI * (IZR z / INR m) * INR m) with (2 * PI * IZR z) by (field; auto). rewrite cis_period. ring.
    + intros E. assert (W : cis (2 * PI * (IZR z / INR m)) = r1).
      { transitivity (radd (rsub (cis (2 * PI * (IZR z / INR m))) r1) r1); [ring|]. rewrite E. ring. }
      apply cis_one in W. destruct W as (q & Hq). apply D.
      assert (Z' : z = (q * Z.of_nat m)%Z).
      { apply eq_IZR. rewrite mult_IZR, <- INR_IZR_INZ, <- Hq. field. auto. }
      rewrite Z'. apply Z_mod_mult.
Qed.

(** ** The convolution theorem *)
Lemma fft_length : forall x, length (fft x) = length x.
Proof. intros. unfold fft. now rewrite map_length, seq_length. Qed.
Lemma ifft_length : forall x, length (ifft x) = length x.
Proof. intros. unfold ifft. now rewrite map_length, seq_length. Qed.
Lemma nth_map_seq : forall (f : nat -> Cr) n k d, (k < n)%nat -> nth k (map f (seq 0 n)) d = f k.
Proof.
  intros f n k d H. rewrite (nth_indep _ d (f 0%nat)) by (rewrite map_length, seq_length; lia).
  rewrite map_nth, seq_nth by lia. reflexivity.
Qed.
Lemma fft_nth : forall x k, (k < length x)%nat ->
  nth k (fft x) r0 = rsum (fun j => rmul (nth j x r0) (cis (- (2 * PI * INR j * INR k / INR (length x))))) (seq 0 (length x)).
Proof. intros. unfold fft. now rewrite nth_map_seq. Qed.
Lemma ifft_nth : forall x j, (j < length x)%nat ->
  nth j (ifft x) r0 = rmul (cR (/ INR (length x)))
     (rsum (fun k => rmul (nth k x r0) (cis (2 * PI * INR j * INR k / INR (length x)))) (seq 0 (length x))).
Proof. intros. unfold ifft. now rewrite nth_map_seq. Qed.
Lemma zmul_length : forall a b, length a = length b -> length (zmul a b) = length a.
Proof. intros. unfold zmul. rewrite map_length, combine_length. lia. Qed.
Lemma zmul_nth : forall a b k, length a = length b -> nth k (zmul a b) r0 = rmul (nth k a r0) (nth k b r0).
Proof.
  intros a b k E. unfold zmul. destruct (Nat.lt_ge_cases k (length a)) as [H|H].
  - rewrite (nth_indep _ r0 ((fun p : Cr * Cr => rmul (fst p) (snd p)) (r0, r0))) by (rewrite map_length, combine_length; lia).
    rewrite (map_nth (fun p : Cr * Cr => rmul (fst p) (snd p))), combine_nth by auto. reflexivity.
  - rewrite nth_overflow by (rewrite map_length, combine_length; lia). rewrite (nth_overflow a) by lia. ring.
Qed.

Lemma convolution : forall (a b : list Cr) m j, length a = m -> length b = m -> (j < m)%nat ->
  nth j (ifft (zmul (fft a) (fft b))) r0 =
  rsum (fun p => rmul (nth p a r0) (nth (Z.to_nat ((Z.of_nat j - Z.of_nat p) mod Z.of_nat m)) b r0)) (seq 0 m).
Proof.
  intros a b m j La Lb Hj. assert (M : INR m <> 0) by (apply not_0_INR; lia).
  assert (LL : length (zmul (fft a) (fft b)) = m). { rewrite zmul_length; rewrite !fft_length; lia. }
  rewrite ifft_nth by lia. rewrite LL.
  transitivity (rmul (cR (/ INR m)) (rsum (fun k => rsum (fun p => rsum (fun q =>
     rmul (rmul (nth p a r0) (nth q b r0)) (cis (2 * PI * IZR (Z.of_nat j - Z.of_nat p - Z.of_nat q) * INR k / INR m)))
     (seq 0 m)) (seq 0 m)) (seq 0 m))).
  { f_equal. apply rsum_ext. intros k Hk. apply in_seq in Hk.
    rewrite zmul_nth by (rewrite !fft_length; lia). rewrite !fft_nth by lia. rewrite La, Lb.
    rewrite <- (rsum_mul_r Cr). rewrite <- (rsum_mul_r Cr).
    apply rsum_ext. intros p _. rewrite <- (rsum_mul_l Cr). rewrite <- (rsum_mul_r Cr). apply rsum_ext. intros q _.
    replace (2 * PI * IZR (Z.of_nat j - Z.of_nat p - Z.of_nat q) * INR k / INR m)
      with (- (2 * PI * INR p * INR k / INR m) + (- (2 * PI * INR q * INR k / INR m) + 2 * PI * INR j * INR k / INR m)).
    - rewrite !cis_add. ring.
    - rewrite !minus_IZR, <- !INR_IZR_INZ. field. auto. }
  rewrite rsum_swap.
  rewrite <- (rsum_mul_l Cr). apply rsum_ext. intros p Hp. apply in_seq in Hp.
  rewrite rsum_swap.
  set (q0 := Z.to_nat ((Z.of_nat j - Z.of_nat p) mod Z.of_nat m)).
  assert (Q : (Z.of_nat q0 = (Z.of_nat j - Z.of_nat p) mod Z.of_nat m)%Z).
  { unfold q0. rewrite Z2Nat.id; auto. apply Z.mod_pos_bound. lia. }
  assert (B := Z.mod_pos_bound (Z.of_nat j - Z.of_nat p) (Z.of_nat m) ltac:(lia)).
  rewrite (rsum_single Cr _ _ (seq 0 m) q0).
  - rewrite (rsum_mul_l Cr). rewrite roots_sum by lia.
    destruct (Z.eq_dec _ _) as [D|D].
    + assert (cR (/ INR m) = cR (/ INR m)) by reflexivity.
      transitivity (rmul (rmul (cR (/ INR m)) (cR (INR m))) (rmul (nth p a r0) (nth q0 b r0))); [ring|].
      replace (rmul (cR (/ INR m)) (cR (INR m))) with (@r1 Cr); [ring|]. unfold cR, ofR. symmetry. apply cplx_eq; simpl; field; auto.
    + exfalso. apply D. rewrite Q. rewrite Zminus_mod, Zmod_mod. rewrite Z.sub_diag. apply Z.mod_0_l. lia.
  - apply seq_NoDup.
  - apply in_seq. lia.
  - intros q Hq N. apply in_seq in Hq. rewrite (rsum_mul_l Cr). rewrite roots_sum by lia.
    destruct (Z.eq_dec _ _) as [D|D]; [|ring]. exfalso. apply N.
    apply Nat2Z.inj. rewrite Q. apply Z.mod_divide in D; [|lia]. destruct D as (t & Ht).
    apply (Z.mod_unique_pos _ _ t); lia.
Qed.

(** ** The values of the kernel *)
Lemma fold_set_length : forall {A} (f : list A -> nat -> list A) l (a : list A), (forall a i, length (f a i) = length a) ->
  length (fold_left f l a) = length a.
Proof. induction l; simpl; intros; auto. rewrite IHl; auto. Qed.
Lemma aux_nth : forall n i, (i <= n)%nat -> nth i (aux n) 0 = INR i * ln (INR i).
Proof.
  intros n i Hi. unfold aux.
  assert (G : forall k s (a : list R), (length a = n + 1)%nat -> (s + k <= n + 1)%nat ->
    nth i (fold_left (fun a i => set_nth i (INR i * ln (INR i)) a) (seq s k) a) 0 =
    if (s <=? i)%nat && (i <? s + k)%nat then INR i * ln (INR i) else nth i a 0).
  { induction k; intros s a La Hs.
    - simpl. destruct (Nat.leb_spec s i), (Nat.ltb_spec i (s + 0)); simpl; auto. lia.
    - cbn [seq fold_left]. rewrite IHk; [|rewrite set_nth_length; auto|lia].
      destruct (Nat.leb_spec (S s) i), (Nat.ltb_spec i (S s + k)), (Nat.leb_spec s i), (Nat.ltb_spec i (s + S k)); simpl; try lia; auto.
      + apply nth_set_other. lia.
      + replace i with s by lia. apply nth_set_same. lia.
      + apply nth_set_other. lia. }
  rewrite G; [|rewrite repeat_length; lia|lia].
  destruct (Nat.leb_spec 1 i), (Nat.ltb_spec i (1 + n)); simpl; auto; try lia.
  replace i with 0%nat by lia. destruct n; simpl; ring.
Qed.
(** |m+1| ln |m+1| etc. with m ln m = 0 at 0 *)
Definition xlnx (z : Z) : R := IZR z * ln (Rabs (IZR z)).
Definition kappa (z : Z) : R := xlnx (z + 1) - 2 * xlnx z + xlnx (z - 1).
Lemma kappa_odd : forall z, kappa (- z) = - kappa z.
Proof.
  intros z. unfold kappa. replace (- z + 1)%Z with (- (z - 1))%Z by lia. replace (- z - 1)%Z with (- (z + 1))%Z by lia.
  unfold xlnx. rewrite !opp_IZR, !Rabs_Ropp. ring.
Qed.
Lemma ker_length : forall n, length (ker n) = (2 * n)%nat.
Proof. intros. unfold ker. rewrite fold_set_length. - apply repeat_length. - intros. now rewrite !set_nth_length. Qed.
Definition kval (n i : nat) : R := nth (i + 1) (aux n) 0 - 2 * nth i (aux n) 0 + nth (i - 1) (aux n) 0.
Lemma kval_kappa : forall n i, (1 <= i < n)%nat -> kval n i = kappa (Z.of_nat i).
Proof.
  intros n i H. unfold kval, kappa, xlnx. rewrite !aux_nth by lia.
  assert (Q : forall z k, z = Z.of_nat k -> IZR z * ln (Rabs (IZR z)) = INR k * ln (INR k)).
  { intros z k ->. rewrite <- INR_IZR_INZ. rewrite Rabs_right; auto. apply Rle_ge, pos_INR. }
  rewrite (Q _ (i + 1)%nat), (Q _ i), (Q _ (i - 1)%nat) by lia. reflexivity.
Qed.
Lemma ker_fold : forall n i k s (a : list R), (length a = 2 * n)%nat -> (i < 2 * n)%nat -> (1 <= s)%nat -> (s + k <= n)%nat ->
  nth i (fold_left (fun k i => let k' := set_nth i (nth (i + 1) (aux n) 0 - 2 * nth i (aux n) 0 + nth (i - 1) (aux n) 0) k in
                        set_nth (2 * n - i) (- nth i k' 0) k') (seq s k) a) 0 =
  if (s <=? i)%nat && (i <? s + k)%nat then kval n i
  else if (s <=? 2 * n - i)%nat && (2 * n - i <? s + k)%nat then - kval n (2 * n - i) else nth i a 0.
Proof.
  induction k; intros s a La Hi H1 Hs.
  - simpl fold_left. destruct (Nat.leb_spec s i), (Nat.ltb_spec i (s + 0)), (Nat.leb_spec s (2 * n - i)), (Nat.ltb_spec (2 * n - i) (s + 0)); simpl andb; cbn iota; auto; lia.
  - cbn [seq fold_left]. rewrite IHk; [|rewrite !set_nth_length; auto|auto|lia|lia].
    rewrite nth_set_same by lia.
    destruct (Nat.leb_spec (S s) i), (Nat.ltb_spec i (S s + k)), (Nat.leb_spec s i), (Nat.ltb_spec i (s + S k)),
      (Nat.leb_spec (S s) (2 * n - i)), (Nat.ltb_spec (2 * n - i) (S s + k)), (Nat.leb_spec s (2 * n - i)), (Nat.ltb_spec (2 * n - i) (s + S k));
      simpl andb; cbn iota; try lia; auto;
      try (rewrite nth_set_other by lia; rewrite nth_set_other by lia; reflexivity).
    all: try (replace (2 * n - s)%nat with i by lia; rewrite nth_set_same by (rewrite set_nth_length; lia); replace (2 * n - i)%nat with s by lia; reflexivity).
    all: rewrite nth_set_other by lia; replace s with i by lia; rewrite nth_set_same by lia; reflexivity.
Qed.
Lemma ker_nth : forall n z, (0 < n)%nat -> (- Z.of_nat n < z < Z.of_nat n)%Z ->
  nth (Z.to_nat (z mod Z.of_nat (2 * n))) (ker n) 0 = kappa z.
Proof.
  intros n z Hn Hz. unfold ker.
  destruct (Z.lt_trichotomy z 0) as [H|[H|H]].
  - replace (z mod Z.of_nat (2 * n))%Z with (z + Z.of_nat (2 * n))%Z. 2:{ apply (Z.mod_unique_pos _ _ (-1)); lia. }
    rewrite ker_fold; [|rewrite repeat_length; lia|lia|lia|lia].
    set (i := Z.to_nat (z + Z.of_nat (2 * n))). assert (Hi : (i > n)%nat) by lia.
    destruct (Nat.leb_spec 1 i), (Nat.ltb_spec i (1 + (n - 1))), (Nat.leb_spec 1 (2 * n - i)), (Nat.ltb_spec (2 * n - i) (1 + (n - 1))); simpl andb; cbn iota; try lia.
    rewrite kval_kappa by lia. rewrite <- kappa_odd. f_equal. lia.
  - subst z. rewrite Z.mod_0_l by lia. simpl Z.to_nat. rewrite ker_fold; [|rewrite repeat_length; lia|lia|lia|lia].
    destruct (Nat.leb_spec 1 0), (Nat.ltb_spec 0 (1 + (n - 1))), (Nat.leb_spec 1 (2 * n - 0)), (Nat.ltb_spec (2 * n - 0) (1 + (n - 1))); simpl andb; cbn iota; try lia.
    transitivity 0. { destruct n; simpl; auto; lia. } unfold kappa, xlnx. simpl. rewrite Rabs_R1. rewrite (Rabs_left (-1)) by lra.
    replace (- (-1)) with 1 by ring. rewrite ln_1. ring.
  - rewrite Z.mod_small by lia. rewrite ker_fold; [|rewrite repeat_length; lia|lia|lia|lia].
    destruct (Nat.leb_spec 1 (Z.to_nat z)), (Nat.ltb_spec (Z.to_nat z) (1 + (n - 1))); simpl andb; cbn iota; try lia.
    rewrite kval_kappa by lia. f_equal. lia.
Qed.

(** ** hilbert_fredriksen is a sum with the kernel 1/pi kappa *)
Lemma kernel_length : forall n, length (kernel_fredriksen n) = (2 * n)%nat.
Proof. intros. unfold kernel_fredriksen. now rewrite map_length, fft_length, map_length, ker_length. Qed.
Lemma zmul_scale : forall a b (c : Cr), length a = length b ->
  zmul a (map (fun z => rmul z c) b) = map (fun z => rmul z c) (zmul a b).
Proof.
  induction a as [|u a IHa]; intros [|w b] c E; try discriminate E; auto. unfold zmul in *. injection E as E. simpl. f_equal; [|apply IHa; auto]. apply cplx_eq; simpl; ring.
Qed.
Lemma ifft_scale : forall x (c : Cr) j, (j < length x)%nat -> nth j (ifft (map (fun z => rmul z c) x)) r0 = rmul (nth j (ifft x) r0) c.
Proof.
  intros x c j H. rewrite !ifft_nth by (try rewrite map_length; lia). rewrite map_length.
  transitivity (rmul (cR (/ INR (length x))) (rsum (fun k => rmul (rmul (nth k x r0) (cis (2 * PI * INR j * INR k / INR (length x)))) c) (seq 0 (length x)))).
  - f_equal. apply rsum_ext. intros k Hk. apply in_seq in Hk.
    rewrite (nth_indep _ r0 (rmul r0 c)) by (rewrite map_length; lia). rewrite (map_nth (fun z => rmul z c)). ring.
  - rewrite (rsum_mul_r Cr). ring.
Qed.
Lemma firstn_nth : forall {A} (l : list A) n j d, (j < n)%nat -> nth j (firstn n l) d = nth j l d.
Proof. induction l; destruct n, j; simpl; intros; auto; try lia. apply IHl. lia. Qed.
Lemma hilbert_sum : forall f j, (j < length f)%nat -> exists r, hilbert_with f (kernel_fredriksen (length f)) = Some r /\
  length r = length f /\
  nth j r r0 = rsum (fun k => rmul (nth k f r0) (cR (kappa (Z.of_nat j - Z.of_nat k) / PI))) (seq 0 (length f)).
Proof.
  intros f j Hj. set (n := length f) in *. unfold hilbert_with. rewrite kernel_length. fold n.
  destruct (Nat.ltb_spec (2 * n) n) as [X|_]; [lia|]. eexists. split; [reflexivity|].
  set (fp := f ++ repeat r0 (2 * n - n)). assert (Lf : length fp = (2 * n)%nat). { unfold fp. rewrite app_length, repeat_length. lia. }
  assert (Lk : length (map cR (ker n)) = (2 * n)%nat) by (rewrite map_length; apply ker_length).
  assert (LL : length (fft fp) = length (fft (map cR (ker n)))) by (rewrite !fft_length; lia).
  unfold kernel_fredriksen. rewrite zmul_scale by exact LL. split.
  - rewrite firstn_length, ifft_length, map_length, zmul_length, fft_length by exact LL. lia.
  - rewrite firstn_nth by auto. rewrite ifft_scale by (rewrite zmul_length, fft_length; [lia|exact LL]).
    rewrite (convolution _ _ (2 * n)) by (auto; lia). rewrite <- (rsum_mul_r Cr).
    replace (seq 0 (2 * n)) with (seq 0 (n + n)) by (f_equal; lia). rewrite seq_app, rsum_app.
    rewrite (rsum_0 Cr _ _ (seq (0 + n) n)).
    + transitivity (rsum (fun p => rmul (rmul (nth p fp r0) (nth (Z.to_nat ((Z.of_nat j - Z.of_nat p) mod Z.of_nat (2 * n))) (map cR (ker n)) r0)) (cR (/ PI))) (seq 0 n)); [ring|].
      apply rsum_ext. intros p Hp. apply in_seq in Hp.
      unfold fp. rewrite app_nth1 by lia.
      change (@r0 Cr) with (cR 0) at 2. rewrite map_nth. rewrite ker_nth by lia. unfold Rdiv.
      transitivity (rmul (nth p f r0) (rmul (cR (kappa (Z.of_nat j - Z.of_nat p))) (cR (/ PI)))); [ring|]. f_equal.
      unfold cR, ofR. cr.
    + intros p Hp. apply in_seq in Hp. unfold fp. rewrite app_nth2 by lia. rewrite nth_repeat. ring.
Qed.
