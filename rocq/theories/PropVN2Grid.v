(** Property C58: the energy grid of the 2vN approach and the functions on it. *)
From Coq Require Import String List Arith Lia ZArith Bool Reals Lra Ring.
From Verif Require Import Base DMIndex CRing Layout Kernel Rates VN2K Integrals Hilbert HilbertProofs PropHilbert VN2Grid VN2Iter PropVN2.
Import ListNotations.
Local Notation length := List.length.
Local Notation Cr := (Cx RRing).
Local Open Scope R_scope.
Local Notation rs f l := (@rsum RRing nat f l).
Add Ring Crring : (rth (Cx RRing)).

(** ** Specification *)
(** equidistant points y0, y0 + h, ... *)
Definition uniform (l : list R) (y0 h : R) : Prop := forall i, (i < length l)%nat -> nth i l 0 = y0 + INR i * h.

(** ** numpy functions *)
Lemma ceil_spec : forall x, x <= IZR (ceil x) < x + 1.
Proof. intros x. unfold ceil. rewrite minus_IZR. destruct (archimed (- x)) as (A & B). lra. Qed.
Lemma insert_last : forall l x, (forall y, In y l -> y < x) -> insert x l = l ++ [x].
Proof.
  induction l as [|y l IH]; intros x H; auto. simpl. destruct (Rle_dec x y) as [X|X].
  - exfalso. assert (y < x) by (apply H; now left). lra.
  - f_equal. apply IH. intros z Hz. apply H. now right.
Qed.
Lemma sort_decreasing : forall (f : nat -> R) m s, (forall i k, (i < k)%nat -> f k < f i) ->
  np_sort (map f (seq s m)) = rev (map f (seq s m)).
Proof.
  intros f m. induction m; intros s H; auto. cbn [seq map rev]. unfold np_sort in *. cbn [fold_right]. rewrite IHm by auto.
  apply insert_last. intros y Hy. apply in_rev in Hy. apply in_map_iff in Hy. destruct Hy as (k & <- & Hk). apply in_seq in Hk. apply H. lia.
Qed.
Lemma nth_map_R : forall (f : nat -> R) n k, (k < n)%nat -> nth k (map f (seq 0 n)) 0 = f k.
Proof.
  intros f n k H. rewrite (nth_indep _ 0 (f 0%nat)) by (rewrite map_length, seq_length; lia).
  rewrite map_nth, seq_nth by lia. reflexivity.
Qed.
Lemma linspace_length : forall a b n, length (linspace a b n) = n.
Proof. intros. unfold linspace. now rewrite map_length, seq_length. Qed.
Lemma linspace_nth : forall a b n k, (k < n)%nat -> nth k (linspace a b n) 0 = a + INR k * ((b - a) / INR (n - 1)).
Proof. intros. unfold linspace. now rewrite nth_map_R. Qed.
Lemma last_nth : forall (l : list R) d, last l d = nth (length l - 1) l d.
Proof.
  induction l as [|x l IH]; intros d; auto. destruct l as [|y l]; auto.
  change (last (x :: y :: l) d) with (last (y :: l) d). rewrite IH. simpl. rewrite Nat.sub_0_r. reflexivity.
Qed.
Lemma fold_min : forall l x, fold_left Rmin l x <= x /\ (forall y, In y l -> fold_left Rmin l x <= y).
Proof.
  induction l as [|z l IH]; intros x; simpl. - split; [lra|tauto].
  - destruct (IH (Rmin x z)) as (A & B). split.
    + eapply Rle_trans; [exact A|apply Rmin_l].
    + intros y [->|Hy]; auto. eapply Rle_trans; [exact A|apply Rmin_r].
Qed.
Lemma fold_max : forall l x, x <= fold_left Rmax l x /\ (forall y, In y l -> y <= fold_left Rmax l x).
Proof.
  induction l as [|z l IH]; intros x; simpl. - split; [lra|tauto].
  - destruct (IH (Rmax x z)) as (A & B). split.
    + eapply Rle_trans; [|exact A]. apply Rmax_l.
    + intros y [->|Hy]; auto. eapply Rle_trans; [|exact A]. apply Rmax_r.
Qed.

(** ** The extended grid *)
(** It continues Ek_grid with the same step on both sides, Ek_grid sits at kpnt_left, and it is the shortest such grid that reaches
    the extended limits. *)
Theorem C58_grid : forall n dmin dmax em eM fct g kl kr, (2 <= n)%nat -> dmin < dmax -> 0 <= fct -> em <= dmin -> dmax <= eM ->
  grid_ext (linspace dmin dmax n) dmin dmax em eM fct = (g, kl, kr) ->
  let h := (dmax - dmin) / INR (n - 1) in
  0 < h /\ length g = (kl + n + kr)%nat /\ uniform g (dmin - INR kl * h) h /\
  (forall k, (k < n)%nat -> nth (kl + k) g 0 = nth k (linspace dmin dmax n) 0) /\
  nth kl g 0 = dmin /\ nth (kl + n - 1) g 0 = dmax /\
  nth 0 g 0 <= fct * (em - dmin) + dmin < nth 0 g 0 + h /\
  last g 0 - h < fct * (eM - dmax) + dmax <= last g 0.
Proof.
  intros n dmin dmax em eM fct g kl kr Hn Hd Hf Hem HeM G h.
  assert (N1 : 1 <= INR (n - 1)). { change 1 with (INR 1). apply le_INR. lia. }
  assert (Hh : 0 < h) by (apply Rdiv_lt_0_compat; lra).
  assert (HN : INR (n - 1) * h = dmax - dmin). { unfold h. field. lra. }
  unfold grid_ext in G.
  replace (nth 1 (linspace dmin dmax n) 0 - nth 0 (linspace dmin dmax n) 0) with h in G.
  2:{ rewrite !linspace_nth by lia. fold h. simpl. ring. }
  set (e1 := fct * (em - dmin) + dmin) in *. set (e2 := fct * (eM - dmax) + dmax) in *.
  assert (B1 : e1 <= dmin). { unfold e1. nra. } assert (B2 : dmax <= e2). { unfold e2. nra. }
  replace (- e1 + h - (- dmin + h)) with (dmin - e1) in G by ring || idtac.
  unfold arange in G.
  replace (- e1 + h - (- dmin + h)) with (dmin - e1) in G by ring. replace (e2 + h - (dmax + h)) with (e2 - dmax) in G by ring.
  set (z1 := ceil ((dmin - e1) / h)) in *. set (z2 := ceil ((e2 - dmax) / h)) in *.
  assert (C1 := ceil_spec ((dmin - e1) / h)). fold z1 in C1. assert (C2 := ceil_spec ((e2 - dmax) / h)). fold z2 in C2.
  assert (P1 : 0 <= (dmin - e1) / h). { apply Rmult_le_pos; [lra|]. left. now apply Rinv_0_lt_compat. }
  assert (P2 : 0 <= (e2 - dmax) / h). { apply Rmult_le_pos; [lra|]. left. now apply Rinv_0_lt_compat. }
  assert (Z1 : (0 <= z1)%Z). { apply le_IZR. lra. } assert (Z2 : (0 <= z2)%Z). { apply le_IZR. lra. }
  rewrite map_map in G. rewrite (sort_decreasing (fun x => - (- dmin + h + INR x * h))) in G.
  2:{ intros i k Hik. apply lt_INR in Hik. nra. }
  injection G as EG Ekl Ekr. rewrite rev_length, map_length, seq_length in Ekl. rewrite map_length, seq_length in Ekr.
  rewrite Ekl, Ekr in EG.
  assert (I1 : INR kl = IZR z1). { rewrite <- Ekl, INR_IZR_INZ, Z2Nat.id; auto. }
  assert (I2 : INR kr = IZR z2). { rewrite <- Ekr, INR_IZR_INZ, Z2Nat.id; auto. }
  rewrite <- I1 in C1. rewrite <- I2 in C2.
  assert (D1 : (dmin - e1) / h * h = dmin - e1) by (field; lra). assert (D2 : (e2 - dmax) / h * h = e2 - dmax) by (field; lra).
  set (Lft := rev (map (fun x => - (- dmin + h + INR x * h)) (seq 0 kl))) in *.
  set (Rgt := map (fun i => dmax + h + INR i * h) (seq 0 kr)) in *.
  assert (LL : length Lft = kl). { unfold Lft. now rewrite rev_length, map_length, seq_length. }
  assert (LR : length Rgt = kr). { unfold Rgt. now rewrite map_length, seq_length. }
  assert (LG : length g = (kl + n + kr)%nat). { rewrite <- EG, !app_length, LL, LR, linspace_length. lia. }
  assert (MID : forall k, (k < n)%nat -> nth (kl + k) g 0 = nth k (linspace dmin dmax n) 0).
  { intros k Hk. rewrite <- EG. rewrite app_nth2 by lia. rewrite app_nth1 by (rewrite linspace_length; lia). f_equal. lia. }
  assert (UNI : uniform g (dmin - INR kl * h) h).
  { intros i Hi. rewrite LG in Hi. destruct (Nat.lt_ge_cases i kl) as [A|A].
    - rewrite <- EG, app_nth1 by lia. unfold Lft. rewrite rev_nth by (rewrite map_length, seq_length; lia).
      rewrite map_length, seq_length. rewrite nth_map_R by lia. rewrite minus_INR by lia. rewrite S_INR. ring.
    - destruct (Nat.lt_ge_cases i (kl + n)) as [B|B].
      + replace i with (kl + (i - kl))%nat at 1 by lia. rewrite MID by lia. rewrite linspace_nth by lia. fold h. rewrite minus_INR by lia. ring.
      + rewrite <- EG, app_nth2 by lia. rewrite app_nth2 by (rewrite linspace_length; lia). rewrite linspace_length, LL.
        unfold Rgt. rewrite nth_map_R by lia. rewrite !minus_INR by lia. rewrite minus_INR in HN by lia. simpl (INR 1) in HN. nra. }
  assert (H0 : nth 0 g 0 = dmin - INR kl * h). { rewrite UNI by lia. simpl. ring. }
  assert (H1 : last g 0 = dmax + INR kr * h).
  { rewrite last_nth, UNI, LG by lia. rewrite minus_INR, !plus_INR by lia. rewrite minus_INR in HN by lia. simpl (INR 1) in *. nra. }
  split; [exact Hh|]. split; [exact LG|]. split; [exact UNI|]. split; [exact MID|].
  split. { rewrite UNI by lia. ring. }
  split. { rewrite UNI by lia. rewrite minus_INR, plus_INR by lia. rewrite minus_INR in HN by lia. simpl (INR 1) in *. nra. }
  rewrite H0, H1. split; nra.
Qed.

(** ** Interpolation *)
Lemma b_idx_cell : forall g y0 h Ek, (2 <= length g)%nat -> 0 < h -> uniform g y0 h -> outside g Ek = false ->
  exists i t, b_idx g Ek = S i /\ (S i < length g)%nat /\ 0 <= t <= 1 /\ Ek = y0 + (INR i + t) * h.
Proof.
  intros g y0 h Ek Hl Hh U O. unfold outside in O. rewrite last_nth in O.
  destruct (Rlt_dec Ek (nth 0 g 0)) as [|A]; [discriminate O|]. destruct (Rlt_dec (nth (length g - 1) g 0) Ek) as [|B]; [discriminate O|].
  unfold b_idx, int_. rewrite !U in * by lia. rewrite minus_INR in B by lia. simpl (INR 0) in *. simpl (INR 1) in *.
  replace (y0 + 1 * h - (y0 + 0 * h)) with h by ring. replace (y0 + 0 * h) with y0 in * by ring.
  set (s := (Ek - y0) / h). assert (S_ : s * h = Ek - y0) by (unfold s; field; lra).
  assert (S0 : 0 <= s). { apply Rmult_le_pos; [lra|]. left. now apply Rinv_0_lt_compat. }
  assert (S1 : s <= INR (length g) - 1). { nra. }
  destruct (base_Int_part s) as (I1 & I2).
  assert (Z0 : (0 <= Int_part s)%Z). { assert (-1 < Int_part s)%Z; [apply lt_IZR; lra|lia]. }
  set (m := Z.to_nat (Int_part s)). assert (M : INR m = IZR (Int_part s)). { unfold m. rewrite INR_IZR_INZ, Z2Nat.id; auto. }
  rewrite <- M in I1, I2.
  assert (ML : (m < length g)%nat). { apply INR_lt. lra. }
  destruct (Nat.eqb_spec (S m) (length g)) as [Q|Q].
  - exists (m - 1)%nat, 1. rewrite <- Q in S1. rewrite S_INR in S1.
    assert (s = INR m) by lra. split; [lia|]. split; [lia|]. split; [lra|]. rewrite minus_INR by lia. simpl (INR 1). nra.
  - exists m, (s - INR m). split; [reflexivity|]. split; [lia|]. split; [lra|]. nra.
Qed.
Lemma outside_false : forall g y0 h Ek, (1 <= length g)%nat -> uniform g y0 h -> (outside g Ek = false <-> y0 <= Ek <= y0 + INR (length g - 1) * h).
Proof.
  intros g y0 h Ek Hl U. unfold outside. rewrite last_nth. rewrite !U by lia. simpl (INR 0).
  destruct (Rlt_dec Ek (y0 + 0 * h)) as [A|A]; [split; [discriminate|lra]|].
  destruct (Rlt_dec (y0 + INR (length g - 1) * h) Ek) as [B|B]; [split; [discriminate|lra]|]. split; auto. intros _. lra.
Qed.
Lemma interp_value : forall g y0 h (f : list Cr) Ek g1 g2, (2 <= length g)%nat -> 0 < h -> uniform g y0 h -> length f = length g -> outside g Ek = false ->
  interpolant g1 y0 h (map re f) -> interpolant g2 y0 h (map im f) -> interp g f Ek = @mkC RRing (g1 Ek) (g2 Ek).
Proof.
  intros g y0 h f Ek g1 g2 Hl Hh U Lf O I1 I2. destruct (b_idx_cell g y0 h Ek Hl Hh U O) as (i & t & Bi & Hi & Ht & EE).
  unfold interp. rewrite Bi. replace (S i - 1)%nat with i by lia. rewrite !U by lia. rewrite S_INR.
  assert (HL : (S i <= length f)%nat) by lia.
  assert (G1 : g1 Ek = (1 - t) * re (nth i f r0) + t * re (nth (S i) f r0)).
  { assert (X := I1 (S i) t). rewrite map_length in X. specialize (X HL Ht). rewrite S_INR in X.
    replace (y0 + (INR i + 1 - 1 + t) * h) with Ek in X by (rewrite EE; ring). cbn [nth] in X. rewrite !nth_map_re in X. exact X. }
  assert (G2 : g2 Ek = (1 - t) * im (nth i f r0) + t * im (nth (S i) f r0)).
  { assert (X := I2 (S i) t). rewrite map_length in X. specialize (X HL Ht). rewrite S_INR in X.
    replace (y0 + (INR i + 1 - 1 + t) * h) with Ek in X by (rewrite EE; ring). cbn [nth] in X. rewrite !nth_map_im in X. exact X. }
  rewrite G1, G2. apply cplx_eq; simpl; rewrite EE; field; lra.
Qed.
(** func_2vN and get_at_k1 give pi times the interpolated function inside the grid and 0 outside, conjugated if asked. *)
Theorem C58_interpolation : forall g y0 h (f : list Cr) Ek g1 g2, (2 <= length g)%nat -> 0 < h -> uniform g y0 h -> length f = length g ->
  interpolant g1 y0 h (map re f) -> interpolant g2 y0 h (map im f) ->
  let inside := y0 <= Ek <= y0 + INR (length g - 1) * h in
  (inside -> func_2vN g f Ek true = @mkC RRing (PI * g1 Ek)%R (PI * g2 Ek)%R /\ func_2vN g f Ek false = @mkC RRing (PI * g1 Ek)%R (- (PI * g2 Ek))%R /\
             at_k1 g f Ek false = @mkC RRing (PI * g1 Ek)%R (PI * g2 Ek)%R /\ at_k1 g f Ek true = @mkC RRing (PI * g1 Ek)%R (- (PI * g2 Ek))%R) /\
  (~ inside -> forall s, func_2vN g f Ek s = r0 /\ at_k1 g f Ek s = r0).
Proof.
  intros g y0 h f Ek g1 g2 Hl Hh U Lf I1 I2 inside. assert (O := outside_false g y0 h Ek ltac:(lia) U). fold inside in O. split.
  - intros IN. apply O in IN. unfold func_2vN, at_k1. rewrite IN. rewrite (interp_value g y0 h f Ek g1 g2) by auto.
    repeat split; apply cplx_eq; simpl; ring.
  - intros NI s. unfold func_2vN, at_k1. destruct (outside g Ek) eqn:Q; auto. exfalso. apply NI. now apply O.
Qed.
(** At a point of the grid func_2vN of the transformed Fermi function is the integral of f(x)/(x_j - x + i0). *)
Theorem C58_self_energy : forall old kl kr (f : list R) g y0 h F, cached old -> 0 < h -> (2 <= kl + length f + kr)%nat ->
  length g = (kl + length f + kr)%nat -> uniform g y0 h -> interpolant F y0 h (pad 0 kl kr f) ->
  exists hf, option_map snd (htransf_fk old kl kr f) = Some hf /\
  forall j, (j < length g)%nat -> let x := nth j g 0 in
    is_pv F (y0 - h) x (y0 + INR (length g) * h) (- re (func_2vN g hf x true)) /\
    im (func_2vN g hf x true) = - (PI * F x) /\
    func_2vN g hf x false = conj (func_2vN g hf x true).
Proof.
  intros old kl kr f g y0 h F Hc Hh Hl Lg U I.
  destruct (C57_fermi old kl kr f y0 h F Hc Hh I) as (fp & hf & E & _ & Lh & V).
  exists hf. split. { now rewrite E. } intros j Hj x.
  assert (X : x = y0 + INR j * h) by (apply U; auto).
  assert (O : outside g x = false).
  { apply (outside_false g y0 h); auto; [lia|]. rewrite X. assert (P1 := pos_INR j). assert (INR j <= INR (length g - 1)) by (apply le_INR; lia). nra. }
  destruct (C57_interpolant y0 h (map re hf) Hh) as (g1 & I1). destruct (C57_interpolant y0 h (map im hf) Hh) as (g2 & I2).
  assert (IV := interp_value g y0 h hf x g1 g2 ltac:(lia) Hh U ltac:(lia) O I1 I2).
  assert (HL : (j <= length hf)%nat) by lia.
  assert (A1 : g1 x = re (nth j hf r0)).
  { assert (Y := I1 j 1). rewrite map_length in Y. specialize (Y HL ltac:(lra)).
    replace (y0 + (INR j - 1 + 1) * h) with x in Y by (rewrite X; ring). rewrite Y. cbn [nth]. rewrite nth_map_re. ring. }
  assert (A2 : g2 x = im (nth j hf r0)).
  { assert (Y := I2 j 1). rewrite map_length in Y. specialize (Y HL ltac:(lra)).
    replace (y0 + (INR j - 1 + 1) * h) with x in Y by (rewrite X; ring). rewrite Y. cbn [nth]. rewrite nth_map_im. ring. }
  destruct (V j ltac:(lia)) as (V1 & V2 & _). rewrite <- X in V1, V2. rewrite <- Lg in V1.
  unfold func_2vN. rewrite O, IV. cbn [csc re im]. rewrite A1, A2.
  split; [|split].
  - simpl. exact V1.
  - exact (eq_trans (f_equal (Rmult PI) V2) (Ropp_mult_distr_r_reverse _ _)).
  - apply cplx_eq; simpl; ring.
Qed.

(** ** The trapezoidal rule *)
Section Trapezoid.
Variables (g : R -> R) (x0 h : R) (f : list R).
Hypothesis (Hh : 0 < h) (I : interpolant g x0 h f).
Let y (k : nat) : R := x0 + INR k * h.
Lemma cell_int : forall k, (S k < length f)%nat -> is_int g (y k) (y (S k)) (h * (nth k f 0 + nth (S k) f 0) / 2).
Proof.
  intros k Hk. set (u := nth k f 0). set (v := nth (S k) f 0). assert (Y : y (S k) = y k + h) by (unfold y; rewrite S_INR; ring).
  apply is_int_ext with (f := fun x => u + (v - u) / h * (x - y k)); [lra| |].
  - intros x Hx. symmetry. rewrite (interpolant_cells g x0 h f Hh I (S k)); [|lia|].
    + cbn [nth]. fold u v. replace (x0 - h + INR (S k) * h) with (y k) by (unfold y; rewrite S_INR; ring). field. lra.
    + rewrite !S_INR. unfold y in Hx. rewrite S_INR in Hx. lra.
  - set (P := fun x => u * x + (v - u) / h * ((x - y k) * (x - y k) / 2)).
    replace (h * (u + v) / 2) with (P (y (S k)) - P (y k)). 2:{ unfold P. rewrite Y. field. lra. }
    apply is_int_prim; [lra| |].
    + intros x _. unfold P. set (c := (v - u) / h).
      replace (u + c * (x - y k)) with (u * 1 + c * ((1 * (x - y k) + (x - y k) * 1) * / 2 )) by field.
      apply (derivable_pt_lim_plus (fun x => u * x) (fun x => c * ((x - y k) * (x - y k) / 2))).
      * apply derivable_pt_lim_scal. apply derivable_pt_lim_id.
      * apply (derivable_pt_lim_scal (fun x => (x - y k) * (x - y k) / 2)).
        assert (D1 : derivable_pt_lim (fun x => x - y k) x 1).
        { replace 1 with (1 - 0) by ring. apply (derivable_pt_lim_minus (fun x => x) (fun _ => y k)). - apply derivable_pt_lim_id. - apply derivable_pt_lim_const. }
        assert (D2 := derivable_pt_lim_mult _ _ _ _ _ D1 D1).
        assert (D3 := derivable_pt_lim_mult _ (fun _ => / 2) _ _ _ D2 (derivable_pt_lim_const (/ 2) x)).
        unfold mult_fct, fct_cte in D3. cbv beta in D3.
        replace ((1 * (x - y k) + (x - y k) * 1) * / 2) with ((1 * (x - y k) + (x - y k) * 1) * / 2 + (x - y k) * (x - y k) * 0) by ring.
        exact D3.
    + intros x _. apply derivable_continuous_pt. exists (0 + (v - u) / h * (1 - 0)).
      apply (derivable_pt_lim_plus (fun _ => u) (fun x => (v - u) / h * (x - y k))). * apply derivable_pt_lim_const.
      * apply (derivable_pt_lim_scal (fun x => x - y k)). apply (derivable_pt_lim_minus (fun x => x) (fun _ => y k)). -- apply derivable_pt_lim_id. -- apply derivable_pt_lim_const.
Qed.
Lemma cells_int : forall m, (S m <= length f)%nat -> is_int g (y 0) (y m) (rs (fun k => h * (nth k f 0 + nth (S k) f 0) / 2) (seq 0 m)).
Proof.
  induction m; intros Hm. - apply is_int_point.
  - rewrite seq_S, rsum_app. cbn [rsum].
    replace (@radd RRing (rs (fun k => h * (nth k f 0 + nth (S k) f 0) / 2) (seq 0 m)) (@radd RRing (h * (nth (0 + m) f 0 + nth (S (0 + m)) f 0) / 2) r0))
      with (rs (fun k => h * (nth k f 0 + nth (S k) f 0) / 2) (seq 0 m) + h * (nth m f 0 + nth (S m) f 0) / 2) by (simpl; ring).
    apply is_int_chasles with (y m). + apply IHm. lia. + apply cell_int. lia.
Qed.
End Trapezoid.
Lemma fold_csc : forall (w : nat -> R) (f : nat -> Cr) l (s : Cr),
  fold_left (fun s i => radd s (csc (w i) (f i))) l s = radd s (rsum (fun i => csc (w i) (f i)) l).
Proof.
  induction l; intros s; cbn [fold_left rsum].
  - ring.
  - rewrite IHl. ring.
Qed.
(** the weights h/2, h, ..., h, h/2 *)
Lemma trapezoid_sum : forall h (f : nat -> R) n, (2 <= n)%nat ->
  rs (fun i => 1 / 2 * (if Nat.eqb i 0 then h else if Nat.eqb i (n - 1) then h else 2 * h) * f i) (seq 0 n) =
  rs (fun k => h * (f k + f (S k)) / 2) (seq 0 (n - 1)).
Proof.
  intros h f n Hn. destruct n as [|[|m]]; try lia. replace (S (S m) - 1)%nat with (S m) by lia.
  transitivity (1 / 2 * h * f 0%nat + rs (fun i => h * f i) (seq 1 m) + 1 / 2 * h * f (S m)).
  - replace (seq 0 (S (S m))) with ([0%nat] ++ seq 1 m ++ [S m]). 2:{ rewrite (seq_S (S m) 0). reflexivity. }
    rewrite !rsum_app. cbn [rsum]. rewrite Nat.eqb_refl. rewrite (rsum_ext RRing _ _ (fun i => h * f i) (seq 1 m)).
    + simpl. rewrite Nat.eqb_refl. ring.
    + intros i Hi. apply in_seq in Hi. destruct (Nat.eqb_spec i 0); [lia|]. destruct (Nat.eqb_spec i (S m)); [lia|]. simpl. field.
  - symmetry. clear Hn. induction m.
    + simpl. field.
    + rewrite seq_S, rsum_app, IHm. cbn [rsum]. rewrite (seq_S m 1), rsum_app. cbn [rsum]. simpl Nat.add. simpl. field.
Qed.
Lemma dx_uniform : forall g y0 h i, (2 <= length g)%nat -> uniform g y0 h -> (i < length g)%nat ->
  dx g i = if Nat.eqb i 0 then h else if Nat.eqb i (length g - 1) then h else 2 * h.
Proof.
  intros g y0 h i Hl U Hi. unfold dx. destruct (Nat.eqb_spec i 0) as [->|N0].
  - rewrite !U by lia. simpl. ring.
  - destruct (Nat.eqb_spec i (length g - 1)) as [E|N1].
    + rewrite !U by lia. rewrite minus_INR by lia. simpl (INR 1). ring.
    + rewrite !U by lia. rewrite minus_INR, plus_INR by lia. simpl (INR 1). ring.
Qed.
Lemma nth_map_seq_R : forall (f : nat -> R) n k, (k < n)%nat -> nth k (map f (seq 0 n)) 0 = f k.
Proof. exact nth_map_R. Qed.
(** phi1_phi0 is the integral over the band of the interpolated phi1k, e_phi1_phi0 that of the interpolated Ek phi1k (real and imaginary part). *)
Theorem C58_integrals : forall g y0 h (f : nat -> Cr) g1 g2 e1 e2, (2 <= length g)%nat -> 0 < h -> uniform g y0 h ->
  let vals := map f (seq 0 (length g)) in
  let evals := map (fun i => csc (nth i g 0) (f i)) (seq 0 (length g)) in
  interpolant g1 y0 h (map re vals) -> interpolant g2 y0 h (map im vals) ->
  interpolant e1 y0 h (map re evals) -> interpolant e2 y0 h (map im evals) ->
  is_int g1 y0 (last g 0) (re (phi1_int g f)) /\ is_int g2 y0 (last g 0) (im (phi1_int g f)) /\
  is_int e1 y0 (last g 0) (re (e_phi1_int g f)) /\ is_int e2 y0 (last g 0) (im (e_phi1_int g f)).
Proof.
  intros g y0 h f g1 g2 e1 e2 Hl Hh U vals evals I1 I2 J1 J2. set (n := length g) in *.
  assert (LA : last g 0 = y0 + INR (n - 1) * h) by (rewrite last_nth; apply U; lia).
  assert (K : forall G (F : nat -> R) vl v, length vl = n -> (forall k, (k < n)%nat -> nth k vl 0 = F k) -> interpolant G y0 h vl ->
    v = rs (fun i => 1 / 2 * dx g i * F i) (seq 0 n) -> is_int G y0 (last g 0) v).
  { intros G F vl v Lv Hv IG ->. assert (X := cells_int G y0 h vl Hh IG (n - 1) ltac:(lia)). cbv beta zeta in X.
    replace (y0 + INR 0 * h) with y0 in X by (simpl; ring). rewrite LA.
    match goal with |- is_int _ _ _ ?v => match type of X with is_int _ _ _ ?w => replace v with w; [exact X|] end end.
    transitivity (rs (fun k => h * (F k + F (S k)) / 2) (seq 0 (n - 1))).
    { apply (rsum_ext RRing). intros k Hk. apply in_seq in Hk. rewrite !Hv by lia. reflexivity. }
    rewrite <- trapezoid_sum by lia. apply (rsum_ext RRing). intros i Hi. apply in_seq in Hi. rewrite (dx_uniform g y0 h) by (auto; lia). reflexivity. }
  assert (LV : length vals = n) by (unfold vals; now rewrite map_length, seq_length).
  assert (LE : length evals = n) by (unfold evals; now rewrite map_length, seq_length).
  unfold phi1_int, e_phi1_int. fold n. rewrite !(fold_csc (fun i => 1 / 2 * dx g i)), !(fold_csc (fun i => 1 / 2 * dx g i * nth i g 0)).
  rewrite !re_add, !im_add, !re_rsum, !im_rsum. change (re (@r0 Cr)) with 0. change (im (@r0 Cr)) with 0.
  split; [|split; [|split]].
  - apply (K g1 (fun k => re (f k)) (map re vals)); auto.
    + now rewrite map_length. + intros k Hk. rewrite nth_map_re. unfold vals. now rewrite nth_map_seq. + simpl. ring.
  - apply (K g2 (fun k => im (f k)) (map im vals)); auto.
    + now rewrite map_length. + intros k Hk. rewrite nth_map_im. unfold vals. now rewrite nth_map_seq. + simpl. ring.
  - apply (K e1 (fun k => nth k g 0 * re (f k)) (map re evals)); auto.
    + now rewrite map_length. + intros k Hk. rewrite nth_map_re. unfold evals. now rewrite nth_map_seq.
    + simpl. rewrite Rplus_0_l. apply (rsum_ext RRing). intros i _. apply Rmult_assoc.
  - apply (K e2 (fun k => nth k g 0 * im (f k)) (map im evals)); auto.
    + now rewrite map_length. + intros k Hk. rewrite nth_map_im. unfold evals. now rewrite nth_map_seq.
    + simpl. rewrite Rplus_0_l. apply (rsum_ext RRing). intros i _. apply Rmult_assoc.
Qed.

(** ** The energies that are asked for *)
Lemma fm_ext_in : forall A B (f g : A -> list B) l, (forall x, In x l -> f x = g x) -> flat_map f l = flat_map g l.
Proof. induction l; simpl; intros H; auto. rewrite H by auto. rewrite IHl; auto. Qed.
Section Range.
Variables (L : Lay) (nl : nat) (E : nat -> R) (T : nat -> nat -> nat -> Cr) (dmin dmax : R).
Hypothesis (HL : clayout L).
Lemma emin_le : emin L E dmin dmax <= dmin /\ emin L E dmin dmax <= dmax /\ forall y, In y (elst L E dmin dmax) -> emin L E dmin dmax <= y.
Proof.
  unfold emin, min_l. destruct (fold_min (dmax :: elst L E dmin dmax) dmin) as (A & B).
  split; auto. split. - apply B. now left. - intros y Hy. apply B. now right.
Qed.
Lemma emax_ge : dmin <= emax L E dmin dmax /\ dmax <= emax L E dmin dmax /\ forall y, In y (elst L E dmin dmax) -> y <= emax L E dmin dmax.
Proof.
  unfold emax, max_l. destruct (fold_max (dmax :: elst L E dmin dmax) dmin) as (A & B).
  split; auto. split. - apply B. now left. - intros y Hy. apply B. now right.
Qed.
Lemma req_same : forall q x y Ek, In q (charges L) -> In x (states L q) -> In y (states L q) -> dmin <= Ek <= dmax ->
  emin L E dmin dmax <= Ek - E x + E y <= emax L E dmin dmax.
Proof.
  intros q x y Ek Hq Hx Hy HE.
  assert (A : In (dmax - E x + E y) (elst L E dmin dmax) /\ In (dmin - E x + E y) (elst L E dmin dmax)).
  { unfold elst. split; apply in_or_app; left; apply in_flat_map; exists q; (split; [auto|]); apply in_flat_map; exists (x, y);
    (split; [now apply in_prod|]); simpl; auto. }
  destruct A as (A1 & A2). assert (B1 := proj2 (proj2 emin_le) _ A2). assert (B2 := proj2 (proj2 emax_ge) _ A1). lra.
Qed.
Lemma req_two : forall q x y Ek, In q (charges2 L) -> In x (states L (q + 2)) -> In y (states L q) -> dmin = - dmax -> dmin <= Ek <= dmax ->
  emin L E dmin dmax <= - (Ek - E x + E y) <= emax L E dmin dmax.
Proof.
  intros q x y Ek Hq Hx Hy HD HE.
  assert (A : In (dmin + E x - E y) (elst L E dmin dmax) /\ In (dmax + E x - E y) (elst L E dmin dmax)).
  { unfold elst. split; apply in_or_app; right; apply in_flat_map; exists q; (split; [auto|]); apply in_flat_map; exists (x, y);
    (split; [now apply in_prod|]); simpl; auto. }
  destruct A as (A1 & A2). assert (B1 := proj2 (proj2 emin_le) _ A1). assert (B2 := proj2 (proj2 emax_ge) _ A2). lra.
Qed.
Lemma ch1 : forall q, In q (charges1 L) -> In q (charges L) /\ In (q + 1)%Z (charges L) /\
  ((exists x, In x (states L (q + 2))) -> In q (charges2 L)) /\ ((exists x, In x (states L (q - 1))) -> In (q - 1)%Z (charges2 L)).
Proof.
  intros q Hq. unfold charges1, charges2, charges in *. apply in_map_iff in Hq. destruct Hq as (k & <- & Hk). apply in_seq in Hk.
  split; [|split; [|split]].
  - apply in_map. apply in_seq. lia.
  - replace (Z.of_nat k + 1)%Z with (Z.of_nat (S k)) by lia. apply in_map. apply in_seq. lia.
  - intros (x & Hx). apply in_map. apply in_seq. destruct (Nat.eq_dec (k + 2) (ly_ncharge L)) as [Q|Q]; [|lia].
    exfalso. replace (Z.of_nat k + 2)%Z with (Z.of_nat (ly_ncharge L)) in Hx by lia. rewrite (cl_above L HL) in Hx. destruct Hx.
  - intros (x & Hx). destruct k as [|k].
    + exfalso. simpl in Hx. rewrite (cl_below L HL) in Hx. destruct Hx.
    + replace (Z.of_nat (S k) - 1)%Z with (Z.of_nat k) by lia. apply in_map. apply in_seq. lia.
Qed.
Variables (Ek lo hi : R).
Hypothesis (HE : dmin <= Ek <= dmax) (Hlo : lo <= emin L E dmin dmax) (Hhi : emax L E dmin dmax <= hi) (HD : dmin = - dmax).
Lemma range1 : forall q x y, In q (charges L) -> In x (states L q) -> In y (states L q) -> lo <= Ek - E x + E y <= hi.
Proof. intros q x y A B C. assert (X := req_same q x y Ek A B C HE). lra. Qed.
Lemma range2 : forall q x y, In q (charges1 L) -> In x (states L (q + 2)) -> In y (states L q) -> lo <= - (Ek - E x + E y) <= hi.
Proof. intros q x y A B C. assert (X := req_two q x y Ek (proj1 (proj2 (proj2 (ch1 q A))) (ex_intro (fun x => In x (states L (q + 2))) x B)) B C HD HE). lra. Qed.
Lemma range3 : forall q x y, In q (charges1 L) -> In x (states L (q + 1)) -> In y (states L (q - 1)) -> lo <= - (Ek - E x + E y) <= hi.
Proof.
  intros q x y A B C. assert (M := proj2 (proj2 (proj2 (ch1 q A))) (ex_intro (fun x => In x (states L (q - 1))) y C)).
  assert (X := req_two (q - 1) x y Ek M). replace (q - 1 + 2)%Z with (q + 1)%Z in X by lia. specialize (X B C HD HE). lra.
Qed.
Lemma each_cb_in : forall A (f g : Z -> nat -> nat -> list A), (forall q c b, In q (charges1 L) -> In c (states L (q + 1)) -> In b (states L q) -> f q c b = g q c b) ->
  each_cb L f = each_cb L g.
Proof. intros A f g H. unfold each_cb. apply fm_ext_in. intros q Hq. apply fm_ext_in. intros [c b] Hp. apply in_prod_iff in Hp. simpl. now apply H. Qed.
Lemma kern1_agree : forall Fp Fm Fp' Fm' : R -> nat -> bool -> Cr,
  (forall x l s, lo <= x <= hi -> Fp x l s = Fp' x l s /\ Fm x l s = Fm' x l s) ->
  forall i, kern1 RRing L nl E T Fp Fm Ek i = kern1 RRing L nl E T Fp' Fm' Ek i.
Proof.
  intros Fp Fm Fp' Fm' AG i. unfold kern1. f_equal. apply each_cb_in. intros q c b Hq Hc Hb.
  destruct (ch1 q Hq) as (Q0 & Q1 & _).
  assert (P : forall x l s, lo <= x <= hi -> Fp x l s = Fp' x l s) by (intros; now apply AG).
  assert (M : forall x l s, lo <= x <= hi -> Fm x l s = Fm' x l s) by (intros; now apply AG).
  unfold kern1_ops. f_equal. f_equal; [|f_equal; [|f_equal]].
  - apply fm_ext_in. intros [b1 a1] Hp. apply in_prod_iff in Hp. destruct Hp as (Hb1 & Ha1). apply map_ext_in. intros l1 _.
    rewrite (P (@radd RRing (@rsub RRing Ek (E b1)) (E b)) l1 true) by (apply (range1 q); auto). rewrite (P (@ropp RRing (@radd RRing (@rsub RRing Ek (E c)) (E a1))) l1 false) by (apply (range3 q); auto). reflexivity.
  - apply fm_ext_in. intros b1 Hb1. apply fm_ext_in. intros l1 _. f_equal; apply map_ext_in.
    + intros c1 Hc1. rewrite (P (@radd RRing (@rsub RRing Ek (E c)) (E c1)) l1 true) by (apply (range1 (q + 1)); auto). reflexivity.
    + intros a1 Ha1. rewrite (M (@ropp RRing (@radd RRing (@rsub RRing Ek (E c)) (E a1))) l1 false) by (apply (range3 q); auto). reflexivity.
  - apply fm_ext_in. intros c1 Hc1. apply fm_ext_in. intros l1 _. f_equal; apply map_ext_in.
    + intros b1 Hb1. rewrite (M (@radd RRing (@rsub RRing Ek (E b1)) (E b)) l1 true) by (apply (range1 q); auto). reflexivity.
    + intros d1 Hd1. rewrite (P (@ropp RRing (@radd RRing (@rsub RRing Ek (E d1)) (E b))) l1 false) by (apply (range2 q); auto). reflexivity.
  - apply fm_ext_in. intros [d1 c1] Hp. apply in_prod_iff in Hp. destruct Hp as (Hd1 & Hc1). apply map_ext_in. intros l1 _.
    rewrite (M (@radd RRing (@rsub RRing Ek (E c)) (E c1)) l1 true) by (apply (range1 (q + 1)); auto). rewrite (M (@ropp RRing (@radd RRing (@rsub RRing Ek (E d1)) (E b))) l1 false) by (apply (range2 q); auto). reflexivity.
Qed.
Lemma terms_range : forall l fp fm q c b t, In q (charges1 L) -> In c (states L (q + 1)) -> In b (states L q) ->
  In t (iter_terms RRing L nl E T Ek l fp fm q c b) -> lo <= fst (fst (fst (fst t))) <= hi.
Proof.
  intros l fp fm q c b t Hq Hc Hb Ht. destruct (ch1 q Hq) as (Q0 & Q1 & _). unfold iter_terms in Ht.
  repeat (apply in_app_iff in Ht; destruct Ht as [Ht|Ht]).
  all: apply in_flat_map in Ht; destruct Ht as (x & Hx & Ht); apply in_flat_map in Ht; destruct Ht as (y & Hy & Ht).
  2: { apply in_flat_map in Ht. destruct Ht as (l1 & _ & [<-|[<-|[]]]); cbn [fst].
       - apply (range1 q); auto. - apply (range1 (q + 1)); auto. }
  all: apply in_map_iff in Ht; destruct Ht as (l1 & <- & _); cbn [fst].
  - apply (range1 q); auto.
  - apply (range2 q); auto.
  - apply (range2 q); auto.
  - apply (range1 (q + 1)); auto.
  - apply (range3 q); auto.
  - apply (range3 q); auto.
Qed.
Lemma iter_agree : forall GH GU GH' GU' : R -> nat -> nat -> bool -> Z -> Cr,
  (forall x l i s j, lo <= x <= hi -> GH x l i s j = GH' x l i s j /\ GU x l i s j = GU' x l i s j) ->
  forall l fp fm i, iter_kern RRing L nl E T GH GU Ek l fp fm i = iter_kern RRing L nl E T GH' GU' Ek l fp fm i.
Proof.
  intros GH GU GH' GU' AG l fp fm i. unfold iter_kern. f_equal. apply each_cb_in. intros q c b Hq Hc Hb. f_equal. f_equal.
  apply (rsum_ext (Cx RRing)). intros t Ht. assert (X := terms_range l fp fm q c b t Hq Hc Hb Ht).
  destruct t as [[[[x l1] ii] s] w]. cbn [fst] in X. unfold pick. destruct (AG x l1 ii s (snd i) X) as (-> & ->). reflexivity.
Qed.
End Range.
(** For a band that is symmetric about zero and ext_fct >= 1 all energies at which the local kernel and the iteration use func_2vN and
    get_at_k1 lie on the extended grid: what these functions return outside does not matter. *)
Theorem C58_range : forall L nl E T n dmin dmax fct g kl kr, clayout L -> (2 <= n)%nat -> dmin < dmax -> dmin = - dmax -> 1 <= fct ->
  grid_ext (linspace dmin dmax n) dmin dmax (emin L E dmin dmax) (emax L E dmin dmax) fct = (g, kl, kr) ->
  forall k, (k < n)%nat -> let Ek := nth (kl + k) g 0 in
  (forall Fp Fm Fp' Fm' : R -> nat -> bool -> Cr,
    (forall x l s, nth 0 g 0 <= x <= last g 0 -> Fp x l s = Fp' x l s /\ Fm x l s = Fm' x l s) ->
    forall i, kern1 RRing L nl E T Fp Fm Ek i = kern1 RRing L nl E T Fp' Fm' Ek i) /\
  (forall GH GU GH' GU' : R -> nat -> nat -> bool -> Z -> Cr,
    (forall x l i s j, nth 0 g 0 <= x <= last g 0 -> GH x l i s j = GH' x l i s j /\ GU x l i s j = GU' x l i s j) ->
    forall l fp fm i, iter_kern RRing L nl E T GH GU Ek l fp fm i = iter_kern RRing L nl E T GH' GU' Ek l fp fm i).
Proof.
  intros L nl E T n dmin dmax fct g kl kr HL Hn Hd HD Hf G k Hk Ek.
  destruct (emin_le L E dmin dmax) as (A1 & _ & _). destruct (emax_ge L E dmin dmax) as (_ & A2 & _).
  destruct (C58_grid n dmin dmax _ _ fct g kl kr Hn Hd ltac:(lra) A1 A2 G) as (Hh & LG & U & MID & _ & _ & B1 & B2).
  assert (HE : dmin <= Ek <= dmax).
  { unfold Ek. rewrite MID by auto. rewrite linspace_nth by auto. set (h := (dmax - dmin) / INR (n - 1)) in *.
    assert (N1 : 1 <= INR (n - 1)). { change 1 with (INR 1). apply le_INR. lia. }
    assert (HN : INR (n - 1) * h = dmax - dmin). { unfold h. field. lra. }
    assert (P := pos_INR k). assert (INR k <= INR (n - 1)) by (apply le_INR; lia). nra. }
  split.
  - intros Fp Fm Fp' Fm' AG i. apply (kern1_agree L nl E T dmin dmax HL Ek (nth 0 g 0) (last g 0)); auto; nra.
  - intros GH GU GH' GU' AG l fp fm i. apply (iter_agree L nl E T dmin dmax HL Ek (nth 0 g 0) (last g 0)); auto; nra.
Qed.

(** For a band that is not symmetric the extended grid can be too short: with all energies 0 and the band [0, 1] it is [0, 1], but the
    terms with two electrons more or less need energies from [-1, 0]. *)
Lemma fold_min_ge : forall l x m, m <= x -> (forall y, In y l -> m <= y) -> m <= fold_left Rmin l x.
Proof. induction l as [|z l IH]; intros x m Hx H; simpl; auto. apply IH. - apply Rmin_glb; auto. apply H. now left. - intros. apply H. now right. Qed.
Lemma fold_max_le : forall l x m, x <= m -> (forall y, In y l -> y <= m) -> fold_left Rmax l x <= m.
Proof. induction l as [|z l IH]; intros x m Hx H; simpl; auto. apply IH. - apply Rmax_lub; auto. apply H. now left. - intros. apply H. now right. Qed.
Lemma elst_zero : forall L y, In y (elst L (fun _ => 0) 0 1) -> y = 0 \/ y = 1.
Proof.
  intros L y H. unfold elst in H. apply in_app_iff in H. destruct H as [H|H]; apply in_flat_map in H; destruct H as (q & _ & H);
  apply in_flat_map in H; destruct H as (p & _ & [<-|[<-|[]]]); [right|left|left|right]; ring.
Qed.
Definition x_T (l a b : nat) : Cr := if (Nat.eqb a 1 && Nat.eqb b 3) || (Nat.eqb a 3 && Nat.eqb b 1) then r1 else r0.
Theorem C58_range_refuted : exists L nl E T n dmin dmax fct g kl kr k (Fp Fm Fp' Fm' : R -> nat -> bool -> Cr) i,
  clayout L /\ (2 <= n)%nat /\ dmin < dmax /\ 1 <= fct /\ (forall l a b, conj (T l a b) = T l b a) /\
  grid_ext (linspace dmin dmax n) dmin dmax (emin L E dmin dmax) (emax L E dmin dmax) fct = (g, kl, kr) /\ (k < n)%nat /\
  (forall x l s, nth 0 g 0 <= x <= last g 0 -> Fp x l s = Fp' x l s /\ Fm x l s = Fm' x l s) /\
  kern1 RRing L nl E T Fp Fm (nth (kl + k) g 0) i <> kern1 RRing L nl E T Fp' Fm' (nth (kl + k) g 0) i.
Proof.
  set (Z0 := (fun (_ : R) (_ : nat) (_ : bool) => r0) : R -> nat -> bool -> Cr).
  set (F := (fun (x : R) (_ : nat) (_ : bool) => if Rlt_dec x 0 then r1 else r0) : R -> nat -> bool -> Cr).
  destruct (grid_ext (linspace 0 1 2) 0 1 (emin v_L (fun _ => 0) 0 1) (emax v_L (fun _ => 0) 0 1) 1) as [[g kl] kr] eqn:G.
  exists v_L, 1%nat, (fun _ => 0), x_T, 2%nat, 0, 1, 1, g, kl, kr, 1%nat, Z0, Z0, F, Z0, (ind1 v_L 1 0 0, ind1 v_L 1 0 0).
  assert (CL : clayout v_L). { apply (clayout_reach 2 "charge"%string v_si v_dm); [lia|right; reflexivity|exact v_reach]. }
  assert (EM : emin v_L (fun _ => 0) 0 1 = 0).
  { apply Rle_antisym; [apply (proj1 (emin_le _ _ _ _))|]. apply fold_min_ge; [lra|]. intros y [<-|Hy]; [lra|]. apply elst_zero in Hy. lra. }
  assert (EX : emax v_L (fun _ => 0) 0 1 = 1).
  { apply Rle_antisym; [|apply (proj1 (proj2 (emax_ge _ _ _ _)))]. apply fold_max_le; [lra|]. intros y [<-|Hy]; [lra|]. apply elst_zero in Hy. lra. }
  destruct (C58_grid 2 0 1 _ _ 1 g kl kr (le_n 2) Rlt_0_1 ltac:(lra) ltac:(apply Req_le; exact EM) ltac:(apply Req_le; symmetry; exact EX) G)
    as (Hh & LG & U & MID & _ & _ & B1 & B2).
  rewrite EM in B1. rewrite EX in B2. set (h := (1 - 0) / INR (2 - 1)) in *. assert (H1 : h = 1) by (unfold h; simpl; field).
  rewrite H1 in *. assert (K1 : nth 0 g 0 = 0 - INR kl * 1 + INR 0 * 1) by (apply U; lia). simpl (INR 0) in K1.
  assert (KL : kl = 0%nat). { destruct kl as [|m]; auto. exfalso. rewrite S_INR in K1. assert (P := pos_INR m). lra. }
  subst kl. simpl (INR 0) in K1. assert (G0 : nth 0 g 0 = 0) by lra.
  split; [exact CL|]. split; [lia|]. split; [lra|]. split; [lra|]. split.
  { intros l a b. unfold x_T. destruct (Nat.eqb a 1), (Nat.eqb a 3), (Nat.eqb b 1), (Nat.eqb b 3); cbn [andb orb]; apply cplx_eq; simpl; ring. }
  split; [exact G|]. split; [lia|]. split.
  { intros x l s Hx. split; [|reflexivity]. unfold Z0, F. destruct (Rlt_dec x 0); [lra|reflexivity]. }
  rewrite MID by lia. rewrite linspace_nth by lia. fold h. rewrite H1. replace (0 + INR 1 * 1) with 1 by (simpl; ring).
  assert (V : forall f : R -> nat -> bool -> Cr, re (kern1 RRing v_L 1 (fun _ => 0) x_T f Z0 1 (ind1 v_L 1 0 0, ind1 v_L 1 0 0)) = 1 + re (f (- (1 - 0 + 0)) 0%nat false)).
  { intros f. cbv -[Rplus Rmult Ropp Rminus R0 R1 IZR]. match goal with |- @eq _ ?u ?v => change (@eq R u v) end.
    destruct (f (- (1 - 0 + 0)) 0%nat false). ring. }
  intros Q. apply (f_equal re) in Q. rewrite !V in Q. unfold Z0, F in Q. destruct (Rlt_dec (- (1 - 0 + 0)) 0) as [X|X]; [|lra]. simpl in Q. lra.
Qed.

(** ** Examples *)
(** the band [-1, 1] with three points, energies 0, 1/2, 1/2, 1: the grid is extended *)
Definition x_E (b : nat) : R := match b with 0%nat => 0 | 3%nat => 1 | _ => 1 / 2 end.
Example C58_case : exists g kl kr, grid_ext (linspace (-1) 1 3) (-1) 1 (emin v_L x_E (-1) 1) (emax v_L x_E (-1) 1) 1 = (g, kl, kr) /\
  clayout v_L /\ emax v_L x_E (-1) 1 = 2 /\ (kl, kr) = (0, 1)%nat /\ uniform g (-1) 1 /\ last g 0 = 2.
Proof.
  destruct (grid_ext (linspace (-1) 1 3) (-1) 1 (emin v_L x_E (-1) 1) (emax v_L x_E (-1) 1) 1) as [[g kl] kr] eqn:G.
  exists g, kl, kr. split; [reflexivity|].
  split. { apply (clayout_reach 2 "charge"%string v_si v_dm); [lia|right; reflexivity|exact v_reach]. }
  assert (EL : forall y, In y (elst v_L x_E (-1) 1) -> -1 <= y <= 2).
  { intros y Hy. cbv -[Rplus Rminus Ropp Rdiv Rinv Rmult IZR Rle] in Hy. repeat (destruct Hy as [<-|Hy]; [lra|]). destruct Hy. }
  assert (IN : In (1 + x_E 3 - x_E 0) (elst v_L x_E (-1) 1)).
  { unfold elst. apply in_or_app. right. apply in_flat_map. exists 0%Z. split; [vm_compute; auto|]. apply in_flat_map. exists (3%nat, 0%nat). split; [vm_compute; auto|].
    cbn [fst snd]. right. now left. }
  assert (EM : emin v_L x_E (-1) 1 = -1).
  { apply Rle_antisym; [apply (proj1 (emin_le _ _ _ _))|]. apply fold_min_ge; [lra|]. intros y [<-|Hy]; [lra|]. apply EL in Hy. lra. }
  assert (EX : emax v_L x_E (-1) 1 = 2).
  { apply Rle_antisym. - apply fold_max_le; [lra|]. intros y [<-|Hy]; [lra|]. apply EL in Hy. lra.
    - assert (X := proj2 (proj2 (emax_ge v_L x_E (-1) 1)) _ IN). change (x_E 3) with 1 in X. change (x_E 0) with 0 in X. lra. }
  split; [exact EX|].
  destruct (C58_grid 3 (-1) 1 _ _ 1 g kl kr ltac:(lia) ltac:(lra) ltac:(lra) (proj1 (emin_le v_L x_E (-1) 1)) (proj1 (proj2 (emax_ge v_L x_E (-1) 1))) G)
    as (Hh & LG & U & MID & _ & _ & B1 & B2).
  rewrite EM in B1. rewrite EX in B2. set (h := (1 - -1) / INR (3 - 1)) in *. assert (H1 : h = 1) by (unfold h; simpl; field).
  rewrite H1 in *. assert (K1 : nth 0 g 0 = -1 - INR kl * 1 + INR 0 * 1) by (apply U; lia). simpl (INR 0) in K1.
  assert (KL : kl = 0%nat). { destruct kl as [|m]; auto. exfalso. rewrite S_INR in K1. assert (P := pos_INR m). lra. }
  subst kl. assert (LA : last g 0 = 1 + INR kr).
  { rewrite last_nth, U, LG by lia. rewrite minus_INR, !plus_INR by lia. simpl. ring. }
  assert (KR : kr = 1%nat).
  { rewrite LA in B2. destruct kr as [|[|m]]; auto; exfalso; rewrite ?S_INR in B2; [simpl in B2; lra|]. assert (P := pos_INR m). lra. }
  subst kr. split; [reflexivity|]. split. - intros i Hi. rewrite U by auto. simpl (INR 0). ring. - rewrite LA. simpl. ring.
Qed.

(** three points and the values 1, i, 2: half way between the last two, 1 + i/2 times pi; outside nothing *)
Example C58_value : let f := [@mkC RRing 1 0; @mkC RRing 0 1; @mkC RRing 2 0] : list Cr in
  uniform [0; 1; 2] 0 1 /\ func_2vN [0; 1; 2] f (3 / 2) true = @mkC RRing (PI * 1)%R (PI * (1 / 2))%R /\ func_2vN [0; 1; 2] f (5 / 2) true = r0.
Proof.
  intros f. assert (U : uniform [0; 1; 2] 0 1). { intros i Hi. simpl in Hi. destruct i as [|[|[|i]]]; [| | |lia]; simpl; ring. }
  split; [exact U|]. destruct (C57_interpolant 0 1 (map re f) Rlt_0_1) as (g1 & I1). destruct (C57_interpolant 0 1 (map im f) Rlt_0_1) as (g2 & I2).
  split.
  - destruct (C58_interpolation [0; 1; 2] 0 1 f (3 / 2) g1 g2 ltac:(simpl; lia) Rlt_0_1 U eq_refl I1 I2) as (A & _).
    destruct A as (A & _). { simpl. lra. } rewrite A. f_equal; f_equal.
    + assert (X := I1 2%nat (1 / 2) ltac:(simpl; lia) ltac:(lra)). replace (0 + (INR 2 - 1 + 1 / 2) * 1) with (3 / 2) in X by (simpl; field).
      rewrite X. simpl. field.
    + assert (X := I2 2%nat (1 / 2) ltac:(simpl; lia) ltac:(lra)). replace (0 + (INR 2 - 1 + 1 / 2) * 1) with (3 / 2) in X by (simpl; field).
      rewrite X. simpl. field.
  - destruct (C58_interpolation [0; 1; 2] 0 1 f (5 / 2) g1 g2 ltac:(simpl; lia) Rlt_0_1 U eq_refl I1 I2) as (_ & B).
    apply B. simpl. lra.
Qed.

Print Assumptions C58_grid.
Print Assumptions C58_interpolation.
Print Assumptions C58_self_energy.
Print Assumptions C58_integrals.
Print Assumptions C58_range.
Print Assumptions C58_range_refuted.
