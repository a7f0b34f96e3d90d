(** Property C57: the discrete Hilbert transform is the principal value integral of the interpolated function. *)
From Coq Require Import List Arith Lia ZArith Bool Reals Lra Ring.
From Verif Require Import Base CRing Integrals Hilbert HilbertProofs.
Import ListNotations.
Local Notation Cr := (Cx RRing).
Local Open Scope R_scope.

(** ** Specification *)
(** [g] has the values [f] at x0, x0 + h, ..., is 0 one step to the left and one step to the right of them, and is linear in between. *)
Definition interpolant (g : R -> R) (x0 h : R) (f : list R) : Prop :=
  forall i t, (i <= length f)%nat -> 0 <= t <= 1 ->
    g (x0 + (INR i - 1 + t) * h) = (1 - t) * nth i (0 :: f) 0 + t * nth (S i) (0 :: f) 0.

(** ** Integrals over the cells *)
Local Notation rs f l := (@rsum RRing nat f l).
Section Cells.
Variables (g : R -> R) (y0 h : R) (F : nat -> R) (N J : nat).
Hypothesis (Hh : 0 < h) (HJ : (0 < J < N)%nat).
Let y (k : nat) : R := y0 + INR k * h.
Hypothesis lin : forall k x, (k < N)%nat -> y k <= x <= y (S k) -> g x = F k + (F (S k) - F k) * ((x - y k) / h).
Let al := y J.
Let G (x : R) : R := g x / (x - al).
Let Lh (k : nat) : R := ln (Rabs (y k - al)).
Let U (k : nat) : R := F k + (F (S k) - F k) * (INR J - INR k).
Let sl (k : nat) : R := (F (S k) - F k) / h.
Definition cellval (k : nat) : R := U k * (Lh (S k) - Lh k) + (F (S k) - F k).
Lemma y_S : forall k, y (S k) = y k + h.
Proof. intros. unfold y. rewrite S_INR. ring. Qed.
Lemma y_le : forall i k, (i <= k)%nat -> y i <= y k.
Proof. intros i k H. unfold y. apply le_INR in H. nra. Qed.
Lemma y_lt : forall i k, (i < k)%nat -> y i < y k.
Proof. intros i k H. unfold y. apply lt_INR in H. nra. Qed.
Lemma cell_part : forall k p q, (k < N)%nat -> y k <= p -> p <= q -> q <= y (S k) -> al < p \/ q < al ->
  is_int G p q (U k * (ln (Rabs (q - al)) - ln (Rabs (p - al))) + sl k * (q - p)).
Proof.
  intros k p q Hk H1 H2 H3 H4.
  apply is_int_ext with (f := fun x => sl k + U k * (1 / (x - al))); auto.
  - intros x Hx. unfold G. rewrite (lin k x) by (auto; lra). unfold U, sl, al, y in *. field. split; lra.
  - replace (U k * (ln (Rabs (q - al)) - ln (Rabs (p - al))) + sl k * (q - p)) with (sl k * (q - p) + U k * (ln (Rabs (q - al)) - ln (Rabs (p - al)))) by ring.
    apply is_int_lin. + apply is_int_const. + apply int_pole; auto.
Qed.
Lemma cell_full : forall k, (k < N)%nat -> (k <> J)%nat -> (S k <> J)%nat -> is_int G (y k) (y (S k)) (cellval k).
Proof.
  intros k Hk N1 N2. assert (H : y (S k) = y k + h) by apply y_S.
  unfold cellval. replace (F (S k) - F k) with (sl k * (y (S k) - y k)). 2:{ rewrite H. unfold sl. field. lra. }
  apply cell_part; auto; try lra. destruct (Nat.lt_ge_cases k J).
  - right. apply y_lt. lia.
  - left. apply y_lt. lia.
Qed.
Lemma left_cells : forall i, (S i <= J)%nat -> is_int G (y 0) (y i) (rs cellval (seq 0 i)).
Proof.
  induction i; intros Hi.
  - apply is_int_point.
  - rewrite seq_S, rsum_app. cbn [rsum]. replace (@radd RRing (rs cellval (seq 0 i)) (@radd RRing (cellval (0 + i)) r0)) with (rs cellval (seq 0 i) + cellval i) by (simpl; ring).
    apply is_int_chasles with (y i). + apply IHi. lia. + apply cell_full; lia.
Qed.
Lemma right_cells : forall k, (S J + k <= N)%nat -> is_int G (y (S J)) (y (S J + k)) (rs cellval (seq (S J) k)).
Proof.
  induction k; intros Hk.
  - rewrite Nat.add_0_r. apply is_int_point.
  - rewrite seq_S, rsum_app. cbn [rsum]. replace (@radd RRing (rs cellval (seq (S J) k)) (@radd RRing (cellval (S J + k)) r0)) with (rs cellval (seq (S J) k) + cellval (S J + k)) by (simpl; ring).
    apply is_int_chasles with (y (S J + k)). + apply IHk. lia. + replace (S J + S k)%nat with (S (S J + k)) by lia. apply cell_full; lia.
Qed.
Lemma pv_cells : is_pv g (y 0) al (y N) (rs cellval (seq 0 N)).
Proof.
  right. split. { split; apply y_lt; lia. }
  pose (j := pred J). assert (EJ : J = S j) by lia. clearbody j.
  intros eta He. set (D := Rabs (sl j + sl (S j)) + 1).
  assert (HD : 0 < D). { unfold D. assert (X := Rabs_pos (sl j + sl (S j))). lra. }
  exists (Rmin h (eta / D)). split. { apply Rmin_glb_lt; auto. apply Rdiv_lt_0_compat; auto. }
  intros e (He0 & He1). assert (E1 : e < h) by (eapply Rlt_le_trans; [exact He1|apply Rmin_l]).
  assert (E2 : e < eta / D) by (eapply Rlt_le_trans; [exact He1|apply Rmin_r]).
  assert (Y : y (S j) = y j + h) by apply y_S. assert (Y2 : y (S (S j)) = y (S j) + h) by apply y_S.
  assert (A : al = y (S j)) by (unfold al; now rewrite EJ).
  assert (Uj : U j = F (S j)). { unfold U. rewrite EJ, S_INR. ring. }
  assert (Uj' : U (S j) = F (S j)). { unfold U. rewrite EJ. ring. }
  exists (rs cellval (seq 0 j) + (U j * (ln (Rabs (al - e - al)) - ln (Rabs (y j - al))) + sl j * (al - e - y j))).
  exists (U (S j) * (ln (Rabs (y (S (S j)) - al)) - ln (Rabs (al + e - al))) + sl (S j) * (y (S (S j)) - (al + e)) + rs cellval (seq (S (S j)) (N - S (S j)))).
  split; [|split].
  - apply is_int_chasles with (y j). + apply left_cells. lia. + apply cell_part; try lia; lra.
  - apply is_int_chasles with (y (S (S j))).
    + apply cell_part; try lia; lra.
    + assert (R := right_cells (N - S (S j))). rewrite EJ in R. replace (S (S j) + (N - S (S j)))%nat with N in R by lia. apply R. lia.
  - replace (seq 0 N) with (seq 0 j ++ [j; S j] ++ seq (S (S j)) (N - S (S j))).
    2:{ replace (seq 0 N) with (seq 0 (j + (2 + (N - S (S j))))) by (f_equal; lia). rewrite seq_app, (seq_app 2). simpl. replace (j + 2)%nat with (S (S j)) by lia. reflexivity. }
    rewrite !rsum_app. cbn [rsum].
    set (S1 := rs cellval (seq 0 j)). set (S2 := rs cellval (seq (S (S j)) (N - S (S j)))). unfold cellval.
    rewrite Uj, Uj'. unfold Lh.
    replace (Rabs (al - e - al)) with e. 2:{ replace (al - e - al) with (- e) by ring. rewrite Rabs_Ropp, Rabs_right; lra. }
    replace (Rabs (al + e - al)) with e. 2:{ replace (al + e - al) with e by ring. rewrite Rabs_right; lra. }
    replace (Rabs (y (S (S j)) - al)) with h. 2:{ replace (y (S (S j)) - al) with h by lra. rewrite Rabs_right; lra. }
    replace (Rabs (y j - al)) with h. 2:{ replace (y j - al) with (- h) by lra. rewrite Rabs_Ropp, Rabs_right; lra. }
    replace (F (S j) - F j) with (sl j * h). 2:{ unfold sl. field. lra. }
    replace (F (S (S j)) - F (S j)) with (sl (S j) * h). 2:{ unfold sl. field. lra. }
    clearbody S1 S2.
    match goal with |- Rabs ?x < _ => replace x with (- ((sl j + sl (S j)) * e)) end.
    + rewrite Rabs_Ropp, Rabs_mult, (Rabs_right e) by lra.
      apply Rle_lt_trans with (D * e). { unfold D. assert (X := Rabs_pos (sl j + sl (S j))). nra. }
      apply Rmult_lt_reg_r with (/ D). { now apply Rinv_0_lt_compat. }
      replace (D * e * / D) with e by (field; lra). exact E2.
    + simpl. replace (y (S (S j))) with (al + h) by lra. replace (y j) with (al - h) by lra. ring.
Qed.
End Cells.
Lemma mul_ln : forall c h, 0 < h -> c * ln (Rabs (c * h)) = c * ln (Rabs c) + c * ln h.
Proof.
  intros c h Hh. destruct (Req_dec c 0) as [->|N]; [ring|].
  rewrite Rabs_mult, (Rabs_right h) by lra. rewrite ln_mult; auto. - ring. - now apply Rabs_pos_lt.
Qed.
Lemma rs_shift : forall (f : nat -> R) n, rs f (seq 1 n) = rs (fun k => f (S k)) (seq 0 n).
Proof. intros. rewrite <- seq_shift, rsum_map. reflexivity. Qed.
(** collecting the coefficients of the values *)
Lemma cells_kappa : forall y0 h (f : list R) j, 0 < h -> (j < length f)%nat ->
  rs (cellval y0 h (fun i => nth i (0 :: f) 0) (S j)) (seq 0 (S (length f))) =
  - rs (fun k => nth k f 0 * kappa (Z.of_nat j - Z.of_nat k)) (seq 0 (length f)).
Proof.
  intros y0 h f j Hh Hj. set (n := length f) in *. set (F := fun i => nth i (0 :: f) 0).
  set (yy := fun k => y0 + INR k * h). set (L := fun k => ln (Rabs (yy k - yy (S j)))).
  assert (F0 : F 0%nat = 0) by reflexivity.
  assert (FN : F (S n) = 0). { unfold F. cbn [nth]. apply nth_overflow. unfold n. lia. }
  set (A := fun k => (1 - (INR (S j) - INR k)) * (L (S k) - L k)).
  set (B := fun k => (INR (S j) - INR k) * (L (S k) - L k)).
  transitivity (rs (fun k => F k * A k) (seq 0 (S n)) + rs (fun k => F (S k) * B k) (seq 0 (S n)) + (F (S n) - F 0%nat)).
  { transitivity (@radd RRing (@radd RRing (rs (fun k => F k * A k) (seq 0 (S n))) (rs (fun k => F (S k) * B k) (seq 0 (S n)))) (rs (fun k => F (S k) - F k) (seq 0 (S n)))).
    - rewrite <- !(rsum_plus RRing). apply (rsum_ext RRing). intros k _. unfold cellval, A, B, L, yy. simpl. ring.
    - assert (T : forall m, rs (fun k => F (S k) - F k) (seq 0 m) = F m - F 0%nat).
      { induction m. - simpl. ring. - rewrite seq_S, rsum_app, IHm. cbn [rsum]. simpl. ring. }
      rewrite T. reflexivity. }
  rewrite FN, F0. rewrite (seq_S n 0) at 2. rewrite rsum_app. cbn [rsum seq Nat.add]. rewrite F0, FN. rewrite rs_shift.
  transitivity (@radd RRing (rs (fun k => F (S k) * A (S k)) (seq 0 n)) (rs (fun k => F (S k) * B k) (seq 0 n))). { simpl. ring. }
  rewrite <- (rsum_plus RRing).
  transitivity (rs (fun k => - (nth k f 0 * kappa (Z.of_nat j - Z.of_nat k))) (seq 0 n)).
  - apply (rsum_ext RRing). intros k _. simpl. change (F (S k)) with (nth k f 0).
    rewrite <- Rmult_plus_distr_l. rewrite Ropp_mult_distr_r. f_equal.
    set (m := INR j - INR k).
    assert (L2 : L (S (S k)) = ln (Rabs ((m - 1) * h))).
    { unfold L, yy, m. rewrite !S_INR. replace (y0 + (INR k + 1 + 1) * h - (y0 + (INR j + 1) * h)) with (- ((INR j - INR k - 1) * h)) by ring. now rewrite Rabs_Ropp. }
    assert (L1 : L (S k) = ln (Rabs (m * h))).
    { unfold L, yy, m. rewrite !S_INR. replace (y0 + (INR k + 1) * h - (y0 + (INR j + 1) * h)) with (- ((INR j - INR k) * h)) by ring. now rewrite Rabs_Ropp. }
    assert (L0 : L k = ln (Rabs ((m + 1) * h))).
    { unfold L, yy, m. rewrite !S_INR. replace (y0 + INR k * h - (y0 + (INR j + 1) * h)) with (- ((INR j - INR k + 1) * h)) by ring. now rewrite Rabs_Ropp. }
    unfold A, B. rewrite L2, L1, L0. unfold kappa, xlnx.
    replace (IZR (Z.of_nat j - Z.of_nat k + 1)) with (m + 1). 2:{ unfold m. rewrite plus_IZR, minus_IZR, <- !INR_IZR_INZ. ring. }
    replace (IZR (Z.of_nat j - Z.of_nat k - 1)) with (m - 1). 2:{ unfold m. rewrite !minus_IZR, <- !INR_IZR_INZ. ring. }
    replace (IZR (Z.of_nat j - Z.of_nat k)) with m. 2:{ unfold m. rewrite minus_IZR, <- !INR_IZR_INZ. ring. }
    rewrite !S_INR.
    assert (M2 := mul_ln (m - 1) h Hh). assert (M1 := mul_ln m h Hh). assert (M0 := mul_ln (m + 1) h Hh).
    replace (INR j + 1 - (INR k + 1)) with m by (unfold m; ring). replace (INR j + 1 - INR k) with (m + 1) by (unfold m; ring).
    nra.
  - rewrite (rsum_opp RRing). reflexivity.
Qed.

Lemma interpolant_cells : forall g x0 h f, 0 < h -> interpolant g x0 h f ->
  forall k x, (k < S (length f))%nat -> (x0 - h) + INR k * h <= x <= (x0 - h) + INR (S k) * h ->
  g x = nth k (0 :: f) 0 + (nth (S k) (0 :: f) 0 - nth k (0 :: f) 0) * ((x - ((x0 - h) + INR k * h)) / h).
Proof.
  intros g x0 h f Hh I k x Hk Hx. set (t := (x - (x0 - h + INR k * h)) / h).
  rewrite S_INR in Hx.
  assert (T : t * h = x - (x0 - h + INR k * h)) by (unfold t; field; lra).
  assert (T01 : 0 <= t <= 1). { split; nra. }
  assert (E := I k t ltac:(lia) T01). replace (x0 + (INR k - 1 + t) * h) with x in E by lra. rewrite E. ring.
Qed.
(** the principal value of an interpolant *)
Lemma interpolant_pv : forall g x0 h f j, 0 < h -> interpolant g x0 h f -> (j < length f)%nat ->
  is_pv g (x0 - h) (x0 + INR j * h) (x0 + INR (length f) * h) (- rs (fun k => nth k f 0 * kappa (Z.of_nat j - Z.of_nat k)) (seq 0 (length f))).
Proof.
  intros g x0 h f j Hh I Hj. rewrite <- (cells_kappa (x0 - h) h) by auto.
  assert (P := pv_cells g (x0 - h) h (fun i => nth i (0 :: f) 0) (S (length f)) (S j) Hh ltac:(lia) (interpolant_cells g x0 h f Hh I)).
  cbv beta zeta in P. rewrite !S_INR in P.
  replace (x0 - h + INR 0 * h) with (x0 - h) in P by (simpl; ring).
  replace (x0 - h + (INR j + 1) * h) with (x0 + INR j * h) in P by ring.
  replace (x0 - h + (INR (length f) + 1) * h) with (x0 + INR (length f) * h) in P by ring. exact P.
Qed.

(** ** The property *)
(** there is such a function *)
Definition hat (s : R) : R := Rmax 0 (1 - Rabs s).
Lemma hat_far : forall s, 1 <= s \/ s <= -1 -> hat s = 0.
Proof. intros s H. unfold hat. apply Rmax_left. unfold Rabs. destruct (Rcase_abs s); lra. Qed.
Lemma hat_right : forall s, 0 <= s <= 1 -> hat s = 1 - s.
Proof. intros s H. unfold hat. rewrite Rabs_right by lra. apply Rmax_right. lra. Qed.
Lemma hat_left : forall s, -1 <= s <= 0 -> hat s = 1 + s.
Proof. intros s H. unfold hat. rewrite Rabs_left1 by lra. rewrite Rmax_right; lra. Qed.
Theorem C57_interpolant : forall x0 h f, 0 < h -> exists g, interpolant g x0 h f.
Proof.
  intros x0 h f Hh. exists (fun x => rs (fun k => nth k f 0 * hat ((x - x0) / h - INR k)) (seq 0 (length f))).
  intros i t Hi Ht. set (n := length f) in *.
  transitivity (rs (fun k => nth k f 0 * hat (INR i - 1 + t - INR k)) (seq 0 n)).
  { apply (rsum_ext RRing). intros k _. do 2 f_equal. field. lra. }
  assert (Z : forall s m, (INR i < INR s) -> rs (fun k => nth k f 0 * hat (INR i - 1 + t - INR k)) (seq s m) = 0).
  { intros s m H. apply (rsum_0 RRing). intros k Hk. apply in_seq in Hk. rewrite hat_far; [simpl; ring|].
    right. assert (INR s <= INR k) by (apply le_INR; lia). apply INR_lt in H. assert (INR i + 1 <= INR s) by (rewrite <- S_INR; apply le_INR; lia). lra. }
  assert (Z0 : forall m, (m + 1 <= i)%nat -> rs (fun k => nth k f 0 * hat (INR i - 1 + t - INR k)) (seq 0 m) = 0).
  { intros m H. apply (rsum_0 RRing). intros k Hk. apply in_seq in Hk. rewrite hat_far; [simpl; ring|].
    left. assert (INR k + 1 <= INR i - 1). { rewrite <- S_INR. assert (INR (S k) <= INR (i - 1)) by (apply le_INR; lia). rewrite minus_INR in H0 by lia. change (INR 1) with 1 in H0. lra. } lra. }
  destruct i as [|i].
  - change (nth 0 (0 :: f) 0) with 0. change (nth 1 (0 :: f) 0) with (nth 0 f 0). simpl (INR 0).
    destruct n as [|m] eqn:En.
    + simpl. rewrite nth_overflow by (fold n; lia). ring.
    + cbn [seq rsum]. rewrite Z by (simpl; lra). simpl (INR 0). rewrite hat_left by lra. simpl. ring.
  - change (nth (S i) (0 :: f) 0) with (nth i f 0). change (nth (S (S i)) (0 :: f) 0) with (nth (S i) f 0).
    rewrite S_INR in *. assert (Hi' : (i < n)%nat) by lia.
    destruct (Nat.eq_dec (S i) n) as [E|E].
    + replace (seq 0 n) with (seq 0 i ++ [i]) by (rewrite <- E; now rewrite seq_S). rewrite rsum_app, Z0 by lia.
      cbn [rsum]. rewrite (nth_overflow f 0 (n := S i)) by (fold n; lia). rewrite hat_right by lra. simpl. ring.
    + replace (seq 0 n) with (seq 0 i ++ [i; S i] ++ seq (S (S i)) (n - S (S i))).
      2:{ replace (seq 0 n) with (seq 0 (i + (2 + (n - S (S i))))) by (f_equal; lia). rewrite seq_app, (seq_app 2). simpl. replace (i + 2)%nat with (S (S i)) by lia. reflexivity. }
      rewrite !rsum_app, Z0 by lia. cbn [rsum]. rewrite Z by (rewrite !S_INR; lra). rewrite hat_right by lra. rewrite S_INR, hat_left by lra. simpl. ring.
Qed.

Lemma re_rsum : forall {A} (f : A -> Cr) l, re (rsum f l) = @rsum RRing A (fun x => re (f x)) l.
Proof. induction l; cbn [rsum]; [reflexivity|]. rewrite re_add, IHl. reflexivity. Qed.
Lemma im_rsum : forall {A} (f : A -> Cr) l, im (rsum f l) = @rsum RRing A (fun x => im (f x)) l.
Proof. induction l; cbn [rsum]; [reflexivity|]. rewrite im_add, IHl. reflexivity. Qed.
Lemma nth_map_re : forall (f : list Cr) k, nth k (map re f) 0 = re (nth k f r0).
Proof. intros. change 0 with (re (@r0 Cr)). apply map_nth. Qed.
Lemma nth_map_im : forall (f : list Cr) k, nth k (map im f) 0 = im (nth k f r0).
Proof. intros. change 0 with (im (@r0 Cr)). apply map_nth. Qed.
Lemma hilbert_with_pv : forall (f : list Cr) x0 h (g1 g2 : R -> R), 0 < h ->
  interpolant g1 x0 h (map re f) -> interpolant g2 x0 h (map im f) ->
  exists r, hilbert_with f (kernel_fredriksen (length f)) = Some r /\ length r = length f /\
    forall j, (j < length f)%nat ->
      is_pv g1 (x0 - h) (x0 + INR j * h) (x0 + INR (length f) * h) (- (PI * re (nth j r r0))) /\
      is_pv g2 (x0 - h) (x0 + INR j * h) (x0 + INR (length f) * h) (- (PI * im (nth j r r0))).
Proof.
  intros f x0 h g1 g2 Hh I1 I2.
  destruct (hilbert_with f (kernel_fredriksen (length f))) as [r|] eqn:Er.
  2:{ unfold hilbert_with in Er. rewrite kernel_length in Er. destruct (Nat.ltb_spec (2 * length f) (length f)) as [X|X]; [lia|discriminate Er]. }
  exists r. split; [reflexivity|]. split.
  { unfold hilbert_with in Er. rewrite kernel_length in Er. destruct (Nat.ltb_spec (2 * length f) (length f)) as [X|X]; [lia|].
    injection Er as <-.
    assert (LL : length (fft (f ++ repeat r0 (2 * length f - length f))) = length (kernel_fredriksen (length f))).
    { rewrite fft_length, app_length, repeat_length, kernel_length. lia. }
    rewrite firstn_length, ifft_length.
    transitivity (Nat.min (length f) (2 * length f)); [|lia]. f_equal.
    exact (eq_trans (zmul_length _ _ LL) (eq_trans LL (kernel_length _))). }
  intros j Hj. destruct (hilbert_sum f j Hj) as (r' & Er' & _ & V). rewrite Er in Er'. injection Er' as <-.
  assert (PP := PI_RGT_0). rewrite V, re_rsum, im_rsum. split.
  - assert (P := interpolant_pv g1 x0 h (map re f) j Hh I1). rewrite map_length in P. specialize (P Hj).
    match goal with |- is_pv _ _ _ _ ?v => match type of P with is_pv _ _ _ _ ?w => replace v with w; [exact P|] end end.
    f_equal. transitivity (rs (fun x => PI * re (rmul (nth x f r0) (cR (kappa (Z.of_nat j - Z.of_nat x) / PI)))) (seq 0 (length f))).
    + apply (rsum_ext RRing). intros k _. rewrite nth_map_re. simpl. field. lra.
    + apply (rsum_mul_l RRing).
  - assert (P := interpolant_pv g2 x0 h (map im f) j Hh I2). rewrite map_length in P. specialize (P Hj).
    match goal with |- is_pv _ _ _ _ ?v => match type of P with is_pv _ _ _ _ ?w => replace v with w; [exact P|] end end.
    f_equal. transitivity (rs (fun x => PI * im (rmul (nth x f r0) (cR (kappa (Z.of_nat j - Z.of_nat x) / PI)))) (seq 0 (length f))).
    + apply (rsum_ext RRing). intros k _. rewrite nth_map_im. simpl. field. lra.
    + apply (rsum_mul_l RRing).
Qed.
(** pi times the transform at a grid point is the principal value of the integral of f(x)/(x_j - x), for the real and the imaginary part *)
Theorem C57_hilbert : forall (f : list Cr) x0 h (g1 g2 : R -> R), 0 < h ->
  interpolant g1 x0 h (map re f) -> interpolant g2 x0 h (map im f) ->
  exists r, hilbert_fredriksen f None = Some r /\ length r = length f /\
    forall j, (j < length f)%nat ->
      is_pv g1 (x0 - h) (x0 + INR j * h) (x0 + INR (length f) * h) (- (PI * re (nth j r r0))) /\
      is_pv g2 (x0 - h) (x0 + INR j * h) (x0 + INR (length f) * h) (- (PI * im (nth j r r0))).
Proof. intros. now apply hilbert_with_pv. Qed.

(** The cached kernel: nothing yet, or the kernel of an earlier length *)
Definition cached (old : option (list Cr)) : Prop := old = None \/ exists n, old = Some (kernel_fredriksen n).
Theorem C57_cache : forall old n, cached old -> ht_kernel old n = kernel_fredriksen n /\ cached (Some (ht_kernel old n)).
Proof.
  intros old n [->|(m & ->)].
  - split; [reflexivity|]. red. right. eauto.
  - unfold ht_kernel. rewrite kernel_length. destruct (Nat.eqb_spec (2 * n) (2 * m)) as [E|E].
    + replace m with n by lia. split; [reflexivity|]. red. right. eauto.
    + split; [reflexivity|]. red. right. eauto.
Qed.
Lemma pad_length : forall A (z : A) kl kr f, length (pad z kl kr f) = (length f + kl + kr)%nat.
Proof. intros. unfold pad. rewrite !app_length, !repeat_length. lia. Qed.
Lemma map_re_cR : forall f, map re (map cR f) = f.
Proof. intros. rewrite map_map. rewrite <- map_id. apply map_ext. reflexivity. Qed.
Lemma map_im_cR : forall f, map im (map cR f) = map (fun _ => 0) f.
Proof. intros. rewrite map_map. reflexivity. Qed.
(** The Fermi functions: pi times hfk is the integral of f(x)/(x_j - x + i0), that is the principal value minus i pi f(x_j). *)
Theorem C57_fermi : forall old kl kr (f : list R) x0 h g, cached old -> 0 < h -> interpolant g x0 h (pad 0 kl kr f) ->
  exists fp hf, htransf_fk old kl kr f = Some (fp, hf) /\ fp = repeat 0 kl ++ f ++ repeat 0 kr /\
    length hf = (kl + length f + kr)%nat /\
    forall j, (j < kl + length f + kr)%nat ->
      is_pv g (x0 - h) (x0 + INR j * h) (x0 + INR (kl + length f + kr) * h) (- (PI * re (nth j hf r0))) /\
      im (nth j hf r0) = - g (x0 + INR j * h) /\ g (x0 + INR j * h) = nth j fp 0.
Proof.
  intros old kl kr f x0 h g Hc Hh I. unfold htransf_fk. destruct (C57_cache old (length f + kl + kr) Hc) as (-> & _).
  set (fp := pad 0 kl kr f) in *. assert (Lp : length fp = (kl + length f + kr)%nat) by (unfold fp; rewrite pad_length; lia).
  replace (length f + kl + kr)%nat with (length (map cR fp)) by (rewrite map_length; lia).
  destruct (C57_interpolant x0 h (map im (map cR fp)) Hh) as (g2 & I2).
  destruct (hilbert_with_pv (map cR fp) x0 h g g2 Hh) as (r & E & Lr & V); auto.
  { now rewrite map_re_cR. }
  rewrite E. rewrite map_length in Lr, V. exists fp. eexists. split; [reflexivity|]. split; [reflexivity|]. split.
  { rewrite map_length, combine_length. lia. }
  intros j Hj. rewrite <- Lp in Hj |- *.
  assert (Q : nth j (map (fun p : Cr * R => shifted (fst p) (snd p)) (combine r fp)) (@r0 Cr) = shifted (nth j r r0) (nth j fp 0)).
  { rewrite (nth_indep _ (@r0 Cr) ((fun p : Cr * R => shifted (fst p) (snd p)) (r0, 0))) by (rewrite map_length, combine_length; lia).
    rewrite (map_nth (fun p : Cr * R => shifted (fst p) (snd p))), combine_nth by lia. reflexivity. }
  rewrite Q. unfold shifted. cbn [re im]. assert (G : g (x0 + INR j * h) = nth j fp 0).
  { assert (X := I j 1 ltac:(lia) ltac:(lra)). replace (x0 + (INR j - 1 + 1) * h) with (x0 + INR j * h) in X by ring. rewrite X. cbn [nth]. ring. }
  rewrite G. split; [exact (proj1 (V j Hj))|]. auto.
Qed.
Theorem C57_phi1k : forall old kl kr (f : list Cr) x0 h g1 g2, cached old -> 0 < h ->
  interpolant g1 x0 h (map re (pad r0 kl kr f)) -> interpolant g2 x0 h (map im (pad r0 kl kr f)) ->
  exists fp hf, htransf_phi1k old kl kr f = Some (fp, hf) /\ fp = repeat r0 kl ++ f ++ repeat r0 kr /\
    length hf = (kl + length f + kr)%nat /\
    forall j, (j < kl + length f + kr)%nat ->
      is_pv g1 (x0 - h) (x0 + INR j * h) (x0 + INR (kl + length f + kr) * h) (- (PI * re (nth j hf r0))) /\
      is_pv g2 (x0 - h) (x0 + INR j * h) (x0 + INR (kl + length f + kr) * h) (- (PI * im (nth j hf r0))).
Proof.
  intros old kl kr f x0 h g1 g2 Hc Hh I1 I2. unfold htransf_phi1k. destruct (C57_cache old (length f + kl + kr) Hc) as (-> & _).
  set (fp := pad r0 kl kr f) in *. assert (Lp : length fp = (kl + length f + kr)%nat) by (unfold fp; rewrite pad_length; lia).
  replace (length f + kl + kr)%nat with (length fp) by lia.
  destruct (hilbert_with_pv fp x0 h g1 g2 Hh I1 I2) as (r & E & Lr & V).
  rewrite E. exists fp, r. split; [reflexivity|]. split; [reflexivity|]. rewrite <- Lp. split; auto.
Qed.

(** the transform of a peak at the first of three points *)
Example C57_case : exists r, hilbert_fredriksen [r1; r0; r0] None = Some r /\
  nth 0 r r0 = cR 0 /\ nth 1 r r0 = cR (2 * ln 2 / PI) /\ nth 2 r r0 = cR ((3 * ln 3 - 4 * ln 2) / PI).
Proof.
  assert (PP := PI_RGT_0).
  destruct (hilbert_sum [r1; r0; r0] 0 ltac:(simpl; lia)) as (r & E & _ & V0).
  destruct (hilbert_sum [r1; r0; r0] 1 ltac:(simpl; lia)) as (r' & E' & _ & V1).
  destruct (hilbert_sum [r1; r0; r0] 2 ltac:(simpl; lia)) as (r'' & E'' & _ & V2).
  rewrite E in E', E''. injection E' as <-. injection E'' as <-.
  exists r. split; [exact E|]. rewrite V0, V1, V2.
  assert (A : forall k, rsum (fun i => rmul (nth i [r1; r0; r0] r0) (cR (kappa (Z.of_nat k - Z.of_nat i) / PI))) (seq 0 (length [@r1 Cr; r0; r0])) = cR (kappa (Z.of_nat k) / PI)).
  { intros k. cbn [length seq rsum nth]. rewrite Z.sub_0_r. apply cplx_eq; simpl; ring. }
  rewrite !A. unfold kappa, xlnx. simpl Z.of_nat. cbn [Z.add Z.sub Z.opp Z.pos_sub Pos.add Pos.pred_double Pos.succ].
  assert (R1 : Rabs (-1) = 1) by (rewrite Rabs_left; lra).
  rewrite R1, !Rabs_R0 || idtac.
  rewrite !(Rabs_right 1), !(Rabs_right 2), !(Rabs_right 3) by lra. rewrite ln_1.
  repeat split; f_equal; simpl; field; lra.
Qed.
Example C57_case_interpolant : exists g, interpolant g 0 (1 / 2) [1; 3; 2].
Proof. apply C57_interpolant. lra. Qed.

Print Assumptions C57_hilbert.
Print Assumptions C57_fermi.
Print Assumptions C57_phi1k.
Print Assumptions C57_cache.
