(** Property C59, continued: two levels, each coupled to its own lead.  The iteration runs; for a density matrix with an imaginary
    coherence its result does not satisfy the equation. *)
From Coq Require Import String List Arith Lia ZArith Bool Reals Lra Ring.
From Verif Require Import Base DMIndex CRing Layout Kernel Rates VN2K Integrals Hilbert HilbertProofs PropHilbert VN2Grid VN2Iter PropKernel PropVN2 VN2Eq PropVN2Grid VN2Solve PropVN2Iter.
Import ListNotations.
Local Notation length := List.length.
Local Notation Cr := (Cx RRing).
Local Open Scope R_scope.
Add Ring Crring3 : (rth (Cx RRing)).
Local Notation crs f l := (@rsum (Cx RRing) nat f l).

(** ** The system *)
Definition w_E (b : nat) : R := match b with 1%nat => -2 | 2%nat => -2 | _ => 0 end.
(** lead 0 couples 0 and 1, lead 1 couples 0 and 2 *)
Definition w_T (l a b : nat) : Cr :=
  match l, a, b with 0%nat, 0%nat, 1%nat => r1 | 0%nat, 1%nat, 0%nat => r1 | 1%nat, 0%nat, 2%nat => r1 | 1%nat, 2%nat, 0%nat => r1 | _, _, _ => r0 end.
Lemma w_hermitian : forall l a b, conj (w_T l a b) = w_T l b a.
Proof.
  assert (Z : conj (@r0 Cr) = r0) by (apply cplx_eq; simpl; ring). assert (O : conj (@r1 Cr) = r1) by (apply cplx_eq; simpl; ring).
  intros [|[|l]] [|[|[|a]]] [|[|[|b]]]; simpl; auto.
Qed.
Lemma w_clayout : clayout v_L.
Proof. apply (clayout_reach 2 "charge"%string v_si v_dm); [lia|right; reflexivity|exact v_reach]. Qed.
Lemma w_layout1 : layout1 v_L.
Proof. apply (layout1_reach 2 "charge"%string v_si v_dm); [lia|exact v_reach]. Qed.
Definition w_prepare := prepare v_L w_E (fun _ => 0) (fun _ => 1) (Some 2%nat) [(-1, 1); (-1, 1)] (11 / 10) (mkGrid 0 0 [0]) None.
Lemma w_prep : exists g p, w_prepare = Some (g, p) /\ g_Ek g = linspace (-1) 1 2 /\ p_kl p = 0%nat /\ p_kr p = 0%nat /\ length (p_grid p) = 2%nat /\ uniform (p_grid p) (-1) 2.
Proof.
  unfold w_prepare, prepare, make_Ek_grid. cbn [map fst snd concat app].
  assert (M1 : min_l (-1) [1; -1; 1] = -1). { unfold min_l. cbn [fold_left]. rewrite (Rmin_left (-1) 1), (Rmin_left (-1) (-1)), (Rmin_left (-1) 1) by lra. reflexivity. }
  assert (M2 : max_l (-1) [1; -1; 1] = 1). { unfold max_l. cbn [fold_left]. rewrite (Rmax_right (-1) 1), (Rmax_left 1 (-1)), (Rmax_left 1 1) by lra. reflexivity. }
  rewrite M1, M2. cbn [g_Ek nth]. destruct (Req_EM_T 0 (-1)) as [Q|Q]; [lra|]. cbn [g_dmin g_dmax g_Ek].
  assert (EL : forall y, In y (elst v_L w_E (-1) 1) -> -1 <= y <= 1).
  { intros y Hy. cbv -[Rplus Rminus Ropp Rdiv Rinv Rmult IZR Rle] in Hy. repeat (destruct Hy as [<-|Hy]; [lra|]). destruct Hy. }
  assert (EM : emin v_L w_E (-1) 1 = -1).
  { apply Rle_antisym; [apply (proj1 (emin_le _ _ _ _))|]. apply fold_min_ge; [lra|]. intros y [<-|Hy]; [lra|]. apply EL in Hy. lra. }
  assert (EX : emax v_L w_E (-1) 1 = 1).
  { apply Rle_antisym; [|apply (proj1 (proj2 (emax_ge _ _ _ _)))]. apply fold_max_le; [lra|]. intros y [<-|Hy]; [lra|]. apply EL in Hy. lra. }
  destruct (grid_ext (linspace (-1) 1 2) (-1) 1 (emin v_L w_E (-1) 1) (emax v_L w_E (-1) 1) (11 / 10)) as [[g kl] kr] eqn:G.
  destruct (C58_grid 2 (-1) 1 _ _ (11 / 10) g kl kr (le_n 2) ltac:(lra) ltac:(lra) (proj1 (emin_le v_L w_E (-1) 1)) (proj1 (proj2 (emax_ge v_L w_E (-1) 1))) G)
    as (Hh & LG & U & MID & _ & _ & B1 & B2).
  rewrite EM in B1. rewrite EX in B2. set (h := (1 - -1) / INR (2 - 1)) in *. assert (H1 : h = 2) by (unfold h; simpl; field).
  rewrite H1 in *. assert (K1 : nth 0 g 0 = -1 - INR kl * 2 + INR 0 * 2) by (apply U; lia). simpl (INR 0) in K1.
  assert (KL : kl = 0%nat). { destruct kl as [|m]; auto. exfalso. rewrite S_INR in K1. assert (P := pos_INR m). lra. }
  subst kl. assert (LA : last g 0 = 1 + INR kr * 2).
  { rewrite last_nth, U, LG by lia. rewrite minus_INR, !plus_INR by lia. simpl. ring. }
  assert (KR : kr = 0%nat). { rewrite LA in B2. destruct kr as [|m]; auto. exfalso. rewrite ?S_INR in B2. assert (P := pos_INR m). lra. }
  subst kr. eexists. eexists. split; [reflexivity|]. cbn [g_Ek p_kl p_kr p_grid]. split; [reflexivity|]. split; [reflexivity|]. split; [reflexivity|]. split; [exact LG|].
  intros i Hi. rewrite U by auto. simpl (INR 0). ring.
Qed.

(** ** Integrals at the points of the grid *)
Lemma interp_point : forall grid y0 h (f : list Cr) j, (2 <= length grid)%nat -> 0 < h -> uniform grid y0 h -> length f = length grid -> (j < length grid)%nat ->
  interp grid f (nth j grid 0) = nth j f r0 /\ outside grid (nth j grid 0) = false.
Proof.
  intros grid y0 h f j Hl Hh U Lf Hj. set (x := nth j grid 0). assert (X : x = y0 + INR j * h) by (apply U; auto).
  assert (O : outside grid x = false).
  { apply (outside_false grid y0 h); auto; [lia|]. rewrite X. assert (P1 := pos_INR j). assert (INR j <= INR (length grid - 1)) by (apply le_INR; lia). nra. }
  split; [|exact O].
  destruct (C57_interpolant y0 h (map re f) Hh) as (ra & J1). destruct (C57_interpolant y0 h (map im f) Hh) as (rb & J2).
  rewrite (interp_value grid y0 h f x ra rb Hl Hh U Lf O J1 J2).
  assert (AT : forall g l, interpolant g y0 h l -> (j <= length l)%nat -> g x = nth j l 0).
  { intros g l I HL. assert (Y := I j 1 HL ltac:(lra)). replace (y0 + (INR j - 1 + 1) * h) with x in Y by (rewrite X; ring). rewrite Y. cbn [nth]. ring. }
  assert (JR : (j <= length f)%nat) by lia. rewrite (AT ra _ J1), (AT rb _ J2) by (rewrite map_length; exact JR). rewrite nth_map_re, nth_map_im. destruct (nth j f r0); reflexivity.
Qed.
Definition kap : R := 2 * ln 2.
Lemma kap_pos : 0 < kap.
Proof. unfold kap. assert (L := ln_lt_2). assert (0 < ln 2) by lra. lra. Qed.
Lemma kappa_vals : kappa 0 = 0 /\ kappa 1 = kap /\ kappa (-1) = - kap.
Proof.
  unfold kappa, xlnx, kap. cbn [Z.add Z.sub Z.opp Z.pos_sub Pos.add Pos.pred_double Pos.succ].
  assert (R1 : Rabs (-1) = 1) by (rewrite Rabs_left; lra). assert (R2 : Rabs (-2) = 2) by (rewrite Rabs_left; lra).
  repeat split; rewrite ?R1, ?R2, ?Rabs_R0, ?(Rabs_right 1), ?(Rabs_right 2) by lra; rewrite ?ln_1; try ring.
Qed.
Section Two.
Variable grid : list R.
Hypothesis (LG : length grid = 2%nat) (U : uniform grid (-1) 2).
Lemma g0 : nth 0 grid 0 = -1. Proof. rewrite U by lia. simpl. ring. Qed.
Lemma g1 : nth 1 grid 0 = 1. Proof. rewrite U by lia. simpl. ring. Qed.
Local Notation I := (ints 2 0 0 grid).
Lemma ints_two : forall s u,
  I s (-1) u = rsub (csc (- kap) (u 1%nat)) (csc (if s then PI else - PI) (rmul (Ci RRing) (u 0%nat))) /\
  I s 1 u = rsub (csc kap (u 0%nat)) (csc (if s then PI else - PI) (rmul (Ci RRing) (u 1%nat))).
Proof.
  intros s u. destruct kappa_vals as (K0 & K1 & K2). assert (PP := PI_RGT_0).
  assert (P0 : nth 0 (padded 2 0 0 u) r0 = u 0%nat) by reflexivity. assert (P1 : nth 1 (padded 2 0 0 u) r0 = u 1%nat) by reflexivity.
  assert (H0 : nth 0 (hil 2 0 0 u) r0 = csc (- kap / PI) (u 1%nat)).
  { rewrite hil_nth by lia. change (seq 0 (2 + 0 + 0)) with [0; 1]%nat. rewrite (rsum_two RRing). rewrite P0, P1. cbn [Z.of_nat Z.sub Z.opp Z.add Pos.of_succ_nat Z.pos_sub]. rewrite K0, K2.
    apply cplx_eq; simpl; assert (G : forall a b c d : R, a * (0 / PI) - b * 0 + (c * (- kap / PI) - d * 0) = - kap / PI * c /\ a * 0 + b * (0 / PI) + (c * 0 + d * (- kap / PI)) = - kap / PI * d) by (intros; split; field; lra); apply G. }
  assert (H1 : nth 1 (hil 2 0 0 u) r0 = csc (kap / PI) (u 0%nat)).
  { rewrite hil_nth by lia. change (seq 0 (2 + 0 + 0)) with [0; 1]%nat. rewrite (rsum_two RRing). rewrite P0, P1. change (Z.of_nat 1 - Z.of_nat 0)%Z with 1%Z. change (Z.of_nat 1 - Z.of_nat 1)%Z with 0%Z. rewrite K0, K1.
    apply cplx_eq; simpl; assert (G : forall a b c d : R, a * (kap / PI) - b * 0 + (c * (0 / PI) - d * 0) = kap / PI * a /\ a * 0 + b * (kap / PI) + (c * 0 + d * (0 / PI)) = kap / PI * b) by (intros; split; field; lra); apply G. }
  assert (LP := padded_length 2 0 0 u). assert (LH := hil_length 2 0 0 u).
  unfold ints.
  destruct (interp_point grid (-1) 2 (padded 2 0 0 u) 0 ltac:(lia) ltac:(lra) U (eq_trans LP (eq_sym LG)) ltac:(lia)) as (A0 & O0).
  destruct (interp_point grid (-1) 2 (padded 2 0 0 u) 1 ltac:(lia) ltac:(lra) U (eq_trans LP (eq_sym LG)) ltac:(lia)) as (A1 & O1).
  destruct (interp_point grid (-1) 2 (hil 2 0 0 u) 0 ltac:(lia) ltac:(lra) U (eq_trans LH (eq_sym LG)) ltac:(lia)) as (B0 & _).
  destruct (interp_point grid (-1) 2 (hil 2 0 0 u) 1 ltac:(lia) ltac:(lra) U (eq_trans LH (eq_sym LG)) ltac:(lia)) as (B1 & _).
  rewrite g0 in A0, O0, B0. rewrite g1 in A1, O1, B1. rewrite O0, O1, A0, A1, B0, B1, P0, P1, H0, H1. clear.
  assert (PP := PI_RGT_0). destruct (u 0%nat) as [a b]. destruct (u 1%nat) as [c d].
  destruct s; split; apply cplx_eq; simpl.
  all: match goal with |- @eq _ ?x ?y => change (@eq R x y) end; unfold rsub, radd, rmul, ropp; simpl; field; lra.
Qed.
End Two.

(** ** The kernels *)
Definition w_diag (Fp Fm : R -> nat -> bool -> Cr) (x : R) (i : nat) : Cr :=
  match i with
  | 0%nat => rsub (rsub (rsub (cR (x - -2 + 0)) (Fp (x - -2 + -2) 0%nat true)) (Fp (x - -2 + -2) 1%nat true)) (Fm (x - 0 + 0) 0%nat true)
  | 1%nat => rsub (rsub (rsub (cR (x - -2 + 0)) (Fp (x - -2 + -2) 0%nat true)) (Fp (x - -2 + -2) 1%nat true)) (Fm (x - 0 + 0) 1%nat true)
  | 2%nat => radd (cR (x - 0 + -2)) (Fm (- (x - 0 + 0)) 0%nat false)
  | _ => radd (cR (x - 0 + -2)) (Fm (- (x - 0 + 0)) 1%nat false)
  end.
Lemma w_kern1 : forall Fp Fm x i j, (i < 4)%nat -> (j < 4)%nat -> kern1 RRing v_L 2 w_E w_T Fp Fm x (i, j) = if Nat.eq_dec i j then w_diag Fp Fm x i else r0.
Proof.
  intros Fp Fm x i j Hi Hj.
  destruct i as [|[|[|[|i]]]]; try lia; destruct j as [|[|[|[|j]]]]; try lia.
  all: apply cplx_eq; cbv -[Rplus Rmult Ropp Rminus R0 R1 IZR]; match goal with |- @eq _ ?u ?v => change (@eq R u v) end; ring.
Qed.

Lemma w_kern0 : forall fp fm, kern0 RRing v_L w_T 1 fp fm (0%nat, 4%Z) = cR (- fm) /\ kern0 RRing v_L w_T 1 fp fm (0%nat, 5%Z) = r0.
Proof. intros fp fm. split; apply cplx_eq; cbv -[Rplus Rmult Ropp Rminus R0 R1 IZR]; match goal with |- @eq _ ?u ?v => change (@eq R u v) end; ring. Qed.
Lemma w_terms : forall Int Y x fp fm, rsum (callv RRing Int Y) (iter_terms RRing v_L 2 w_E w_T x 0 fp fm 0 2 0) = rmul (cR (- fm)) (Int true (x - 0 + 0) (cY RRing Y 1 0)).
Proof. intros. apply cplx_eq; cbv -[Rplus Rmult Ropp Rminus R0 R1 IZR]; match goal with |- @eq _ ?u ?v => change (@eq R u v) end; ring. Qed.

(** ** An inverse of diagonal matrices *)
Definition cinv (z : Cr) : Cr := @mkC RRing (re z / (re z * re z + im z * im z))%R (- im z / (re z * re z + im z * im z))%R.
Definition is_zero (z : Cr) : bool := if Req_EM_T (re z) 0 then if Req_EM_T (im z) 0 then true else false else false.
Definition w_inv (M : nat * nat -> Cr) : option (nat * nat -> Cr) :=
  if forallb (fun x => if Nat.eq_dec (fst x) (snd x) then negb (is_zero (M x)) else is_zero (M x)) (list_prod (seq 0 4) (seq 0 4))
  then Some (fun x => if Nat.eq_dec (fst x) (snd x) then cinv (M x) else r0) else None.
Lemma is_zero_true : forall z, is_zero z = true -> z = r0.
Proof. intros [a b]. unfold is_zero. cbn [re im]. destruct (Req_EM_T a 0), (Req_EM_T b 0); try discriminate. intros _. subst. reflexivity. Qed.
Lemma cinv_mul : forall z, is_zero z = false -> rmul z (cinv z) = r1.
Proof.
  intros [a b] H. assert (N : a * a + b * b <> 0).
  { unfold is_zero in H. cbn [re im] in H. destruct (Req_EM_T a 0) as [A|A]; [destruct (Req_EM_T b 0) as [B|B]; [discriminate|]|]; nra. }
  unfold cinv. apply cplx_eq; simpl; match goal with |- @eq _ ?u ?v => change (@eq R u v) end; field; exact N.
Qed.
Lemma w_inv_spec : forall M N, w_inv M = Some N -> forall i j, (i < ly_ndm1 v_L)%nat -> (j < ly_ndm1 v_L)%nat ->
  crs (fun x => rmul (M (i, x)) (N (x, j))) (seq 0 (ly_ndm1 v_L)) = if Nat.eq_dec i j then r1 else r0.
Proof.
  intros M N H i j Hi Hj. unfold w_inv in H. destruct (forallb _ _) eqn:F; [|discriminate]. injection H as <-. rewrite forallb_forall in F.
  change (ly_ndm1 v_L) with 4%nat in *.
  assert (G0 : forall u : Cr, rmul u r0 = r0) by (intros; ring). assert (G1 : forall u : Cr, rmul r0 u = r0) by (intros; ring).
  rewrite (rsum_single Cr _ _ _ i (seq_NoDup _ _)).
  - cbn [fst snd]. destruct (Nat.eq_dec i j) as [<-|NE]; [|apply G0]. specialize (F (i, i) ltac:(apply in_prod; apply in_seq; lia)). cbn [fst snd] in F.
    destruct (Nat.eq_dec i i); [|congruence]. apply cinv_mul. destruct (is_zero (M (i, i))); [discriminate|reflexivity].
  - apply in_seq. lia.
  - intros x Hx NE. apply in_seq in Hx. specialize (F (i, x) ltac:(apply in_prod; apply in_seq; lia)). cbn [fst snd] in F.
    destruct (Nat.eq_dec i x); [congruence|]. rewrite (is_zero_true _ F). apply G1.
Qed.
Lemma w_inv_some : forall M : nat * nat -> Cr, (forall i j, (i < 4)%nat -> (j < 4)%nat -> if Nat.eq_dec i j then @im RRing (M (i, j)) <> 0 else M (i, j) = r0) -> exists N, w_inv M = Some N.
Proof.
  intros M H. unfold w_inv. destruct (forallb _ _) eqn:F; [eauto|]. exfalso. apply Bool.not_true_iff_false in F. apply F. apply forallb_forall.
  intros [i j] Hx. apply in_prod_iff in Hx. destruct Hx as (A & B). apply in_seq in A. apply in_seq in B. specialize (H i j ltac:(lia) ltac:(lia)). cbn [fst snd].
  destruct (Nat.eq_dec i j).
  - unfold is_zero. destruct (Req_EM_T (re (M (i, j))) 0); [destruct (Req_EM_T (im (M (i, j))) 0); [congruence|reflexivity]|reflexivity].
  - rewrite H. unfold is_zero. simpl. destruct (Req_EM_T 0 0); congruence.
Qed.

(** a density matrix with an imaginary coherence of the states 1 and 2 *)
Definition w_phi (j : Z) : Cr := if Z.eq_dec j 4 then Ci RRing else if Z.eq_dec j 5 then ropp (Ci RRing) else r0.
Lemma w_phi_hermitian : hermitian_phi RRing v_L w_phi.
Proof.
  assert (Z0 : conj (@r0 Cr) = r0) by (apply cplx_eq; simpl; ring).
  intros c b bp Hc Hb Hbp. change (Z.of_nat (ly_ncharge v_L)) with 3%Z in Hc.
  assert (X : c = 0%Z \/ c = 1%Z \/ c = 2%Z) by lia. destruct X as [->|[->| ->]].
  - destruct Hb as [<-|[]], Hbp as [<-|[]]. exact (eq_sym Z0).
  - destruct Hb as [<-|[<-|[]]], Hbp as [<-|[<-|[]]]; try exact (eq_sym Z0); apply cplx_eq; cbv -[Rplus Rmult Ropp Rminus IZR]; match goal with |- @eq _ ?x ?y => change (@eq R x y) end; ring.
  - destruct Hb as [<-|[]], Hbp as [<-|[]]; exact (eq_sym Z0).
Qed.
(** ** Two iterations *)
Section Run.
Variables (g : Grid) (p : Prep).
Hypothesis (HP : w_prepare = Some (g, p)) (HE : g_Ek g = linspace (-1) 1 2) (KL : p_kl p = 0%nat) (KR : p_kr p = 0%nat)
  (LG : length (p_grid p) = 2%nat) (U : uniform (p_grid p) (-1) 2).
Let HC : cached None := or_introl eq_refl.
Let PR := C59_prepare v_L w_E (fun _ => 0) (fun _ => 1) (Some 2%nat) [(-1, 1); (-1, 1)] (11 / 10) (mkGrid 0 0 [0]) g None p HC HP.
Lemma PN : p_n p = 2%nat.
Proof. rewrite (proj1 PR), HE. apply linspace_length. Qed.
Local Notation I := (ints 2 0 0 (p_grid p)).
Lemma IE : ints (p_n p) (p_kl p) (p_kr p) (p_grid p) = I.
Proof. now rewrite PN, KL, KR. Qed.
Lemma Ek_vals : Ek p 0 = -1 /\ Ek p 1 = 1.
Proof.
  destruct PR as (_ & _ & A & _). rewrite !A by (rewrite PN; lia). rewrite HE, !linspace_nth by lia. simpl. split; field.
Qed.
Lemma f_range : forall l k, (k < 2)%nat -> 0 < fpk p l k < 1.
Proof.
  intros l k Hk. destruct PR as (_ & _ & _ & A & _). rewrite A by (rewrite PN; lia). match goal with |- 0 < 1 / (exp ?z + 1) < 1 => assert (X := exp_pos z); set (w := exp z) in * end.
  split; [apply Rdiv_lt_0_compat; lra|]. apply (Rmult_lt_reg_r (w + 1)); [lra|]. unfold Rdiv. rewrite Rmult_assoc, Rinv_l; lra.
Qed.
Definition dg (k i : nat) : Cr := w_diag (Fp RRing I (fpk p)) (Fm RRing I (fpk p)) (Ek p k) i.
Lemma loc1_val : forall k i j, (i < 4)%nat -> (j < 4)%nat -> loc1 v_L 2 w_E w_T p k (i, j) = if Nat.eq_dec i j then dg k i else r0.
Proof.
  intros k i j Hi Hj. rewrite (loc1_eq v_L 2 w_E w_T _ _ _ _ _ _ g None p HC HP). rewrite IE. apply w_kern1; auto.
Qed.
Lemma re_I : forall s (u : nat -> R), (re (I s (-1) (fun k => cR (u k))) = - kap * u 1%nat /\ im (I s (-1) (fun k => cR (u k))) = (if s then - PI else PI) * u 0%nat) /\
  (re (I s 1 (fun k => cR (u k))) = kap * u 0%nat /\ im (I s 1 (fun k => cR (u k))) = (if s then - PI else PI) * u 1%nat).
Proof.
  intros s u. destruct (ints_two (p_grid p) LG U s (fun k => cR (u k))) as (A & B). rewrite A, B.
  destruct s; repeat split; simpl; match goal with |- @eq _ ?x ?y => change (@eq R x y) end; ring.
Qed.
Lemma dg_pos : forall k i, (k < 2)%nat -> (i < 4)%nat -> 0 < im (dg k i) /\ (k = 0%nat -> i = 0%nat -> 0 < re (dg k i)).
Proof.
  intros k i Hk Hi. assert (PP := PI_RGT_0). assert (KP := kap_pos). destruct Ek_vals as (E0 & E1).
  assert (PF : forall l k, (k < 2)%nat -> 0 < PI * fpk p l k /\ 0 < PI * (1 - fpk p l k)) by (intros l k' Hk'; assert (F := f_range l k' Hk'); split; apply Rmult_lt_0_compat; lra).
  assert (KF : forall l k, (k < 2)%nat -> 0 < kap * fpk p l k /\ 0 < kap * (1 - fpk p l k)) by (intros l k' Hk'; assert (F := f_range l k' Hk'); split; apply Rmult_lt_0_compat; lra).
  assert (P00 := PF 0%nat 0%nat ltac:(lia)). assert (P01 := PF 0%nat 1%nat ltac:(lia)). assert (P10 := PF 1%nat 0%nat ltac:(lia)). assert (P11 := PF 1%nat 1%nat ltac:(lia)).
  assert (K01 := KF 0%nat 1%nat ltac:(lia)). assert (K11 := KF 1%nat 1%nat ltac:(lia)). clear PF KF.
  assert (VP : forall s l, (re (Fp RRing I (fpk p) (-1) l s) = - kap * fpk p l 1 /\ im (Fp RRing I (fpk p) (-1) l s) = (if s then - PI else PI) * fpk p l 0) /\
     (re (Fp RRing I (fpk p) 1 l s) = kap * fpk p l 0 /\ im (Fp RRing I (fpk p) 1 l s) = (if s then - PI else PI) * fpk p l 1)) by (intros s l; exact (re_I s (fpk p l))).
  assert (VM : forall s l, (re (Fm RRing I (fpk p) (-1) l s) = - kap * (1 - fpk p l 1) /\ im (Fm RRing I (fpk p) (-1) l s) = (if s then - PI else PI) * (1 - fpk p l 0)) /\
     (re (Fm RRing I (fpk p) 1 l s) = kap * (1 - fpk p l 0) /\ im (Fm RRing I (fpk p) 1 l s) = (if s then - PI else PI) * (1 - fpk p l 1))) by (intros s l; exact (re_I s (fun k => 1 - fpk p l k))).
  assert (M1 : forall x, x - -2 + -2 = x) by (intros; ring). assert (M2 : forall x, x - 0 + 0 = x) by (intros; ring).
  unfold dg, w_diag. rewrite ?M1, ?M2.
  assert (RS : forall a b : Cr, re (rsub a b) = (re a - re b)%R) by reflexivity. assert (RA : forall a b : Cr, re (radd a b) = (re a + re b)%R) by reflexivity.
  assert (IS : forall a b : Cr, im (rsub a b) = (im a - im b)%R) by reflexivity. assert (IA : forall a b : Cr, im (radd a b) = (im a + im b)%R) by reflexivity.
  assert (RC : forall z, re (cR z) = z) by reflexivity. assert (IC : forall z, im (cR z) = 0) by reflexivity.
  assert (VP1 := fun s l => proj1 (proj1 (VP s l))). assert (VP2 := fun s l => proj2 (proj1 (VP s l))). assert (VP4 := fun s l => proj2 (proj2 (VP s l))).
  assert (VM1 := fun s l => proj1 (proj1 (VM s l))). assert (VM2 := fun s l => proj2 (proj1 (VM s l))). assert (VM4 := fun s l => proj2 (proj2 (VM s l))).
  cbv beta in *. clear VP VM.
  destruct k as [|[|k]]; [| |lia]; rewrite ?E0, ?E1.
  - replace (- -1) with 1 by ring.
    destruct i as [|[|[|[|i]]]]; [| | | |lia]; (split; [|intros _ Q; try discriminate Q]).
    all: rewrite ?RS, ?RA, ?IS, ?IA, ?RC, ?IC, ?VP1, ?VP2, ?VM1, ?VM2, ?VM4; lra.
  - destruct i as [|[|[|[|i]]]]; [| | | |lia]; (split; [|intros Q _; discriminate Q]).
    all: rewrite ?RS, ?RA, ?IS, ?IA, ?RC, ?IC, ?VP4, ?VM2, ?VM4; lra.
Qed.
Local Notation iteration := (iteration v_L 2 w_E w_T w_inv p). Local Notation iterations := (iterations v_L 2 w_E w_T w_inv p).
(** it runs *)
Lemma w_first : exists s, iteration fresh = Some s.
Proof.
  unfold VN2Solve.iteration, iterate. cbn [vs_zeroth fresh]. destruct (forallb _ _) eqn:F; [eauto|]. exfalso. apply Bool.not_true_iff_false in F. apply F. apply forallb_forall.
  intros k Hk. apply in_seq in Hk. rewrite PN in Hk. destruct (w_inv_some (loc1 v_L 2 w_E w_T p k)) as (N & ->); [|reflexivity].
  intros i j Hi Hj. rewrite loc1_val by auto. destruct (Nat.eq_dec i j); [|reflexivity]. assert (X := proj1 (dg_pos k i ltac:(lia) Hi)). lra.
Qed.
Lemma w_next : forall m s, iterations (S m) fresh = Some s -> exists s', iteration s = Some s'.
Proof.
  intros m s H. destruct (inv_all v_L 2 w_E w_T _ _ w_layout1 _ _ _ _ g None p HC HP w_inv w_inv_spec m s H) as (s0 & _ & (Z0 & _) & _).
  unfold VN2Solve.iteration, iterate. rewrite Z0. eauto.
Qed.
Variables s0 s1 : VS.
Hypothesis (H0 : iterations 1%nat fresh = Some s0) (H1 : iteration s0 = Some s1).
(** the first-order element (1, 0) of lead 1, columns (1, 2) and (2, 1) *)
Lemma w_cols : forall k, (k < 2)%nat ->
  rmul (dg k 0) (vs_phi s0 k 1%nat (0%nat, 4%Z)) = cR (- (1 - fpk p 1 k)) /\ vs_phi s0 k 1%nat (0%nat, 5%Z) = r0.
Proof.
  intros k Hk.
  assert (A : forall j, rmul (dg k 0) (vs_phi s0 k 1%nat (0%nat, j)) = kern0 RRing v_L w_T 1 (fpk p 1 k) (fmk p 1 k) (0%nat, j)).
  { intros j. assert (I0 : iteration fresh = Some s0). { rewrite (iterations_snoc v_L 2 w_E w_T p w_inv 0 fresh) in H0. exact H0. }
    destruct (C59_iterate v_L 2 w_E w_T _ _ w_layout1 _ _ _ _ g None p HC HP w_inv w_inv_spec 0 fresh s0 eq_refl I0) as (_ & _ & SV).
    specialize (SV k 1%nat 0%Z 1%nat 0%nat j ltac:(rewrite PN; exact Hk) ltac:(vm_compute; auto) ltac:(vm_compute; auto) ltac:(vm_compute; auto)). cbv zeta in SV.
    rewrite (nonloc_0 v_L 2 w_E w_T _ _ w_layout1 _ _ _ _ g None p HC HP) in SV; [|vm_compute; auto|vm_compute; auto|vm_compute; auto].
    change (ind1 v_L 1 0 0) with 0%nat in SV. change (ly_ndm1 v_L) with 4%nat in SV.
    rewrite (rsum_single Cr _ _ _ 0%nat (seq_NoDup _ _)) in SV.
    - rewrite loc1_val in SV by lia. destruct (Nat.eq_dec 0 0); [|congruence]. unfold loc0 in SV. rewrite SV. assert (G : forall u : Cr, radd u r0 = u) by (intros; ring). apply G.
    - apply in_seq. lia.
    - intros z Hz NE. apply in_seq in Hz. rewrite loc1_val by lia. destruct (Nat.eq_dec 0 z); [congruence|]. assert (G : forall u : Cr, rmul r0 u = r0) by (intros; ring). apply G. }
  destruct (w_kern0 (fpk p 1 k) (fmk p 1 k)) as (K4 & K5). split.
  - rewrite A, K4. reflexivity.
  - assert (B := A 5%Z). rewrite K5 in B. destruct (dg_pos k 0 Hk ltac:(lia)) as (DP & _). destruct (dg k 0) as [a b]. destruct (vs_phi s0 k 1%nat (0%nat, 5%Z)) as [u v].
    cbn [im] in DP. assert (B1 := f_equal re B). assert (B2 := f_equal im B). simpl in B1, B2.
    match type of B1 with ?x = ?y => change (@eq R (a * u - b * v) 0) in B1 end. change (@eq R (a * v + b * u) 0) in B2.
    assert (S0 : (a * a + b * b) * u = 0) by (replace ((a * a + b * b) * u) with (a * (a * u - b * v) + b * (a * v + b * u)) by ring; rewrite B1, B2; ring).
    assert (S1 : (a * a + b * b) * v = 0) by (replace ((a * a + b * b) * v) with (a * (a * v + b * u) - b * (a * u - b * v)) by ring; rewrite B1, B2; ring). assert (N : a * a + b * b <> 0) by nra.
    apply Rmult_integral in S0. apply Rmult_integral in S1. destruct S0 as [S0|S0]; [contradiction|]. destruct S1 as [S1|S1]; [contradiction|]. subst. reflexivity.
Qed.
Lemma w_fails : let X := applied v_L (vs_phi s1) w_phi in let Y := applied v_L (vs_phi s0) w_phi in
  rmul (cR (Ek p 0 - w_E 2 + w_E 0)) (X 0%nat 0%nat (ind1 v_L 2 0 0)) <>
  radd (sources v_L w_T p w_phi 0 0 0 2 0) (second RRing v_L 2 w_E w_T (ints (p_n p) (p_kl p) (p_kr p) (p_grid p)) (fpk p) (Ek p) X Y 0 0 0 2 0).
Proof.
  intros X Y Q.
  apply (equation_iff v_L 2 w_E w_T _ _ w_clayout w_layout1 _ _ _ _ g None p HC HP w_inv w_inv_spec 1 s0 s1 w_phi H0 H1) in Q;
    [|rewrite PN; lia|vm_compute; auto|vm_compute; auto|vm_compute; auto].
  rewrite IE in Q. fold Y in Q. rewrite w_terms in Q.
  set (y := fun k => vs_phi s0 k 1%nat (0%nat, 4%Z)). set (A := I true (-1) (fun k => conj (y k))).
  destruct (w_cols 0 ltac:(lia)) as (C0 & D0). destruct (w_cols 1 ltac:(lia)) as (C1 & D1).
  assert (YE : forall k, (k < 2)%nat -> Y k 1%nat 0%nat = rmul (y k) (Ci RRing)).
  { intros k Hk. destruct (w_cols k Hk) as (_ & D). unfold Y, applied. change (seq 0 (n0 v_L)) with [0; 1; 2; 3; 4; 5]%nat. unfold w_phi.
    do 6 rewrite (rsum_cons RRing). cbn [Z.of_nat Pos.of_succ_nat Pos.succ]. rewrite D. unfold y. cbn [rsum].
    repeat match goal with |- context [Z.eq_dec ?a ?b] => destruct (Z.eq_dec a b); try discriminate; try congruence end. ring. }
  destruct Ek_vals as (E0 & E1). rewrite E0 in Q. replace (-1 - 0 + 0) with (-1) in Q by ring.
  assert (LA : I true (-1) (cY RRing Y 1 0) = rmul (ropp (Ci RRing)) A).
  { unfold A. rewrite <- ints_mul. apply ints_ext. intros k Hk. unfold cY. rewrite YE by auto. rewrite conj_mul. 
    assert (CI : conj (Ci RRing) = ropp (Ci RRing)) by (apply cplx_eq; simpl; ring). rewrite CI. ring. }
  assert (NL : forall j, nonloc v_L 2 w_E w_T p (vs_phi s0) 0 0 (ind1 v_L 2 0 0, j) = rmul (cR (- fmk p 0 0)) (I true (-1) (fun k => conj (vs_phi s0 k 1%nat (0%nat, j))))).
  { intros j. rewrite (nonloc_row v_L 2 w_E w_T _ _ w_layout1 _ _ _ _ g None p HC HP); [|vm_compute; auto|vm_compute; auto|vm_compute; auto].
    rewrite IE, w_terms, E0. replace (-1 - 0 + 0) with (-1) by ring. reflexivity. }
  rewrite LA in Q. change (seq 0 (n0 v_L)) with [0; 1; 2; 3; 4; 5]%nat in Q. do 6 rewrite (rsum_cons RRing) in Q. cbn [Z.of_nat Pos.of_succ_nat Pos.succ rsum] in Q.
  rewrite !NL in Q. unfold w_phi in Q. repeat match type of Q with context [Z.eq_dec ?a ?b] => destruct (Z.eq_dec a b); try discriminate; try congruence end.
  assert (N5 : I true (-1) (fun k => conj (vs_phi s0 k 1%nat (0%nat, 5%Z))) = r0).
  { destruct (ints_two (p_grid p) LG U true (fun k => conj (vs_phi s0 k 1%nat (0%nat, 5%Z)))) as (T0 & _). rewrite T0, D0, D1. apply cplx_eq; simpl; match goal with |- @eq _ ?x ?y => change (@eq R x y) end; ring. }
  rewrite N5 in Q. fold y in Q. change (I true (-1) (fun k => conj (vs_phi s0 k 1%nat (0%nat, 4%Z)))) with A in Q.
  assert (AZ : rmul (cR (fmk p 0 0)) (rmul (Ci RRing) A) = r0).
  { assert (CN : cR (- fmk p 0 0) = ropp (cR (fmk p 0 0))) by (apply cplx_eq; simpl; [reflexivity|]; change (@eq R 0 (- 0)); ring). rewrite CN in Q.
    assert (X2 : radd (rmul (cR (fmk p 0 0)) (rmul (Ci RRing) A)) (rmul (cR (fmk p 0 0)) (rmul (Ci RRing) A)) = r0).
    { match type of Q with ?l = _ => transitivity (radd l (rmul (cR (fmk p 0 0)) (rmul (Ci RRing) A))); [ring|] end. rewrite Q. ring. }
    set (w := rmul (cR (fmk p 0 0)) (rmul (Ci RRing) A)) in *. destruct w as [a b]. assert (X3 := f_equal re X2). assert (X4 := f_equal im X2). simpl in X3, X4.
    change (@eq R (a + a) 0) in X3. change (@eq R (b + b) 0) in X4. apply cplx_eq; simpl; [change (@eq R a 0)|change (@eq R b 0)]; lra. }
  assert (FR := f_range 0 0 ltac:(lia)).
  assert (IA : im A = 0).
  { assert (X3 := f_equal re AZ). simpl in X3. set (u := im A) in *. set (v := re A) in *. set (f := fmk p 0 0) in *. assert (FP : 0 < f) by (unfold f, fmk; lra).
    change (@eq R (f * (0 * v - 1 * u) - 0 * (0 * u + 1 * v)) 0) in X3. nra. }
  assert (AV := proj1 (ints_two (p_grid p) LG U true (fun k => conj (y k)))). fold A in AV. apply (f_equal im) in AV. rewrite IA in AV.
  destruct (dg_pos 0 0 ltac:(lia) ltac:(lia)) as (P0 & R0). specialize (R0 eq_refl eq_refl). destruct (dg_pos 1 0 ltac:(lia) ltac:(lia)) as (P1 & _).
  fold (y 0%nat) in C0. fold (y 1%nat) in C1.
  assert (F0 := f_range 1 0 ltac:(lia)). assert (F1 := f_range 1 1 ltac:(lia)).
  destruct (y 0%nat) as [a0 b0]. destruct (y 1%nat) as [a1 b1]. destruct (dg 0 0) as [c0 d0]. destruct (dg 1 0) as [c1 d1]. cbn [re im] in *.
  assert (KP := kap_pos). assert (PP := PI_RGT_0).
  assert (V : 0 = kap * b1 - PI * a0).
  { transitivity (im (rsub (csc (- kap) (conj (@mkC RRing a1 b1))) (csc PI (rmul (Ci RRing) (conj (@mkC RRing a0 b0)))))); [exact AV|].
    simpl. match goal with |- @eq _ ?x ?y => change (@eq R x y) end. ring. }
  assert (Q1 := f_equal re C0). assert (Q2 := f_equal im C0). assert (Q3 := f_equal re C1). assert (Q4 := f_equal im C1). simpl in Q1, Q2, Q3, Q4.
  change (@eq R (c0 * a0 - d0 * b0) (- (1 - fpk p 1 0))) in Q1. change (@eq R (c0 * b0 + d0 * a0) 0) in Q2.
  change (@eq R (c1 * a1 - d1 * b1) (- (1 - fpk p 1 1))) in Q3. change (@eq R (c1 * b1 + d1 * a1) 0) in Q4.
  change (Rlt 0 c0) in R0. change (Rlt 0 d0) in P0. change (Rlt 0 d1) in P1.
  assert (A0 : a0 < 0).
  { assert (S0 : (c0 * c0 + d0 * d0) * a0 = - (1 - fpk p 1 0) * c0) by (replace ((c0 * c0 + d0 * d0) * a0) with (c0 * (c0 * a0 - d0 * b0) + d0 * (c0 * b0 + d0 * a0)) by ring; rewrite Q1, Q2; ring). assert (0 < c0 * c0 + d0 * d0) by nra. destruct (Rlt_dec a0 0); auto. exfalso.
    assert (0 <= (c0 * c0 + d0 * d0) * a0) by (apply Rmult_le_pos; lra). nra. }
  assert (B1 : 0 < b1).
  { assert (S0 : (c1 * c1 + d1 * d1) * b1 = (1 - fpk p 1 1) * d1) by (replace ((c1 * c1 + d1 * d1) * b1) with (c1 * (c1 * b1 + d1 * a1) - d1 * (c1 * a1 - d1 * b1)) by ring; rewrite Q3, Q4; ring). assert (0 < c1 * c1 + d1 * d1) by nra. destruct (Rlt_dec 0 b1); auto. exfalso.
    assert ((c1 * c1 + d1 * d1) * b1 <= 0) by nra. nra. }
  assert (0 < kap * b1) by (apply Rmult_lt_0_compat; auto). assert (0 < PI * - a0) by (apply Rmult_lt_0_compat; lra). lra.
Qed.
End Run.

(** For Hermitian density matrices the equation fails: the rows of the table are conjugated column by column, while the conjugate of
    the applied table has the columns of (b, bp) and (bp, b) exchanged. *)
Theorem C59_coherence_refuted : exists L nl E T mu temp kpnt dlst ext_fct g g' p linv s0 s1 phi0 k l q c b,
  clayout L /\ layout1 L /\ hermitian RRing T /\ prepare L E mu temp kpnt dlst ext_fct g None = Some (g', p) /\
  (forall M N, linv M = Some N -> forall i j, (i < ly_ndm1 L)%nat -> (j < ly_ndm1 L)%nat ->
     crs (fun x => rmul (M (i, x)) (N (x, j))) (seq 0 (ly_ndm1 L)) = if Nat.eq_dec i j then r1 else r0) /\
  iterations L nl E T linv p 1 fresh = Some s0 /\ iteration L nl E T linv p s0 = Some s1 /\ hermitian_phi RRing L phi0 /\
  (k < p_n p)%nat /\ In q (charges1 L) /\ In c (states L (q + 1)) /\ In b (states L q) /\
  let X := applied L (vs_phi s1) phi0 in let Y := applied L (vs_phi s0) phi0 in
  rmul (cR (Ek p k - E c + E b)) (X k l (ind1 L c b q)) <>
  radd (sources L T p phi0 k l q c b) (second RRing L nl E T (ints (p_n p) (p_kl p) (p_kr p) (p_grid p)) (fpk p) (Ek p) X Y k l q c b).
Proof.
  destruct w_prep as (g & p & HP & HE & KL & KR & LG & U).
  destruct (w_first g p HP HE KL KR LG U) as (s0 & I0).
  assert (H0 : iterations v_L 2 w_E w_T w_inv p 1 fresh = Some s0) by (rewrite iterations_snoc; exact I0).
  destruct (w_next g p HP 0 s0 H0) as (s1 & H1).
  exists v_L, 2%nat, w_E, w_T, (fun _ => 0), (fun _ => 1), (Some 2%nat), [(-1, 1); (-1, 1)], (11 / 10), (mkGrid 0 0 [0]), g, p, w_inv, s0, s1, w_phi, 0%nat, 0%nat, 0%Z, 2%nat, 0%nat.
  split; [exact w_clayout|]. split; [exact w_layout1|]. split; [exact w_hermitian|]. split; [exact HP|]. split; [exact w_inv_spec|]. split; [exact H0|]. split; [exact H1|].
  split; [exact w_phi_hermitian|]. split; [rewrite (PN g p HP HE); lia|]. split; [vm_compute; auto|]. split; [vm_compute; auto|]. split; [vm_compute; auto|].
  exact (w_fails g p HP HE KL KR LG U s0 s1 H0 H1).
Qed.

(** the same system, two iterations, a density matrix with a real coherence: what C59_equation asks for; the column of the coherence is not zero *)
Definition w_real (j : Z) : Cr := if Z.eq_dec j 4 then r1 else if Z.eq_dec j 5 then r1 else cR (1 / 4).
Example C59_case : exists g p s0 s1, w_prepare = Some (g, p) /\ p_n p = 2%nat /\ iterations v_L 2 w_E w_T w_inv p 1 fresh = Some s0 /\ iteration v_L 2 w_E w_T w_inv p s0 = Some s1 /\
  (forall j, (j < n0 v_L)%nat -> conj (w_real (Z.of_nat j)) = w_real (Z.of_nat j)) /\ n0 v_L = 6%nat /\ vs_niter s1 = 1%Z /\ vs_phi s0 0%nat 1%nat (0%nat, 4%Z) <> r0.
Proof.
  destruct w_prep as (g & p & HP & HE & KL & KR & LG & U).
  destruct (w_first g p HP HE KL KR LG U) as (s0 & I0).
  assert (H0 : iterations v_L 2 w_E w_T w_inv p 1 fresh = Some s0) by (rewrite iterations_snoc; exact I0).
  destruct (w_next g p HP 0 s0 H0) as (s1 & H1).
  exists g, p, s0, s1. split; [exact HP|]. split; [exact (PN g p HP HE)|]. split; [exact H0|]. split; [exact H1|]. split; [|split; [reflexivity|split]].
  - intros j _. unfold w_real. destruct (Z.eq_dec _ _); [|destruct (Z.eq_dec _ _)]; apply cplx_eq; simpl; try reflexivity; match goal with |- @eq _ ?x ?y => change (@eq R x y) end; ring.
  - destruct (C59_iterate v_L 2 w_E w_T _ _ w_layout1 _ _ _ _ g None p (or_introl eq_refl) HP w_inv w_inv_spec 1 s0 s1 H0 H1) as (A & _). exact A.
  - intros Z0. destruct (w_cols g p HP HE KL KR LG U s0 H0 0 ltac:(lia)) as (C0 & _). rewrite Z0 in C0. assert (F := f_range g p HP HE KL KR LG 1 0 ltac:(lia)).
    apply (f_equal re) in C0. simpl in C0. match type of C0 with ?x = _ => assert (X : x = 0%R) by (match goal with |- @eq _ ?x ?y => change (@eq R x y) end; ring) end.
    rewrite X in C0. lra.
Qed.

Print Assumptions C59_resolvent.
Print Assumptions C59_prepare.
Print Assumptions C59_iterate.
Print Assumptions C59_equation.
Print Assumptions C59_converged.
Print Assumptions C59_pair.
Print Assumptions C59_coherence_refuted.
