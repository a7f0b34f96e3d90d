(** C66, concluded: the statement for systems made by the builder, what happens when a state is removed, examples. *)
From Coq Require Import String List Arith Lia ZArith Bool Permutation Ring Reals Lra.
From Verif Require Import Base Bits Indexing DMIndex DMReach PropDMIndex CRing SpecFunc RTDInt RTDGen Layout Kernel Fock Operators PropOperators PropKernel MasterEq
  Rotate PropRotate TunnelSquare RTDK RTDNd PropRTD PropRTDBand PropRTDBandR PropRTDBandInt.
Import ListNotations.
Open Scope string_scope.
Open Scope nat_scope.
Local Notation length := List.length.

(** ** Systems of the builder *)
Section Built.
Variables (n : nat) (name : string) (si : SI) (L : Lay) (nl : nat).
(** no state is removed *)
Hypotheses (RS : reachable_si n name [] si) (NS : ix_of name n <> IxSsq) (SY : system n name si L)
  (ALL : Permutation (cons_states L) (seq 0 (si_nmany si))).
Variables (tleads : list ((nat * nat) * Cx RRing)) (Tba : nat * nat * nat -> Cx RRing) (v : Vecs RRing) (ixp : ix) (T : nat -> nat -> nat -> Cx RRing).
(** the amplitudes of tleads in the basis of orthonormal eigenvectors *)
Hypotheses (HT : forall l i t, In ((l, i), t) tleads -> l < nl /\ i < n)
  (HS : ixp <> IxLin -> ixp <> IxCharge -> spin_conserving RRing n nl tleads)
  (EC : construct_Tba RRing si nl tleads zeros = Some Tba) (HX : ixp = IxLin \/ ixp = ix_of name n)
  (SH : shaped RRing si v) (UR : unitary_rows RRing si v) (UC : unitary_columns RRing si v)
  (RT : forall l, l < nl -> rotate_Tba RRing si nl ixp v (fun l i j => Tba (l, i, j)) l = Some (T l)).
Variables (psi psi1 : Cx RRing -> Cx RRing) (psi_re psi1_im psi2_re : R -> R) (tm mu : nat -> R) (tmax : R).
Variables (ns : nat) (E : nat -> R) (tl : nat -> nat -> Cx RRing) (pf : nat -> nat -> bool -> R) (inv : R -> R) (imgt : Cx RRing -> bool).
Hypothesis BIG : above_cutoff L nl T tmax.
Local Notation iD dl bR := (rtd_D psi psi1 psi_re psi1_im psi2_re tm mu dl bR).
Local Notation iX dl bR := (rtd_X psi psi_re psi1_im psi2_re tm mu dl bR).
Local Notation kern := (code_kern psi_re L nl T tm mu tmax E pf inv).
Local Notation current := (code_current psi_re L nl T tm mu tmax E pf inv).
Local Notation ecurrent := (code_energy_current psi_re L nl T tm mu tmax ns E tl pf inv imgt).

Theorem C66_band_widths : forall dl dl' bR, (forall t, prod4 RRing L nl T t -> cut_im tmax t = false) ->
  (forall r r', r < nl -> r' < nl -> (TMIN_X <= Rabs (tm r' - tm r))%R -> kept (band dl' r / 2) (tm r') bR = kept (band dl r / 2) (tm r') bR) ->
  (forall off ij, kern dl' (iD dl' bR) (iX dl' bR) off ij = kern dl (iD dl bR) (iX dl bR) off ij) /\
  (forall off phi l, current dl' (iD dl' bR) (iX dl' bR) off phi l = current dl (iD dl bR) (iX dl bR) off phi l) /\
  (forall k, (0 < k)%R -> (forall l, l < nl -> (0 < tm l /\ 0 < band dl l /\ band dl' l = k * band dl l)%R) ->
   forall off nmany phi l, ecurrent dl' (iD dl' bR) (iX dl' bR) off nmany phi l = ecurrent dl (iD dl bR) (iX dl bR) off nmany phi l).
Proof.
  intros dl dl' bR RE KE.
  destruct (C66_complete n name si L nl RS NS SY ALL tleads Tba v ixp T HT HS EC HX SH UR UC RT) as [AC LO].
  destruct (layout_states L LO) as (ND & Top & Bottom).
  apply (C66_widths psi psi1 psi_re psi1_im psi2_re L nl T (gam RRing n tleads) tm mu tmax ND Top Bottom AC BIG ns E tl pf inv imgt dl dl' bR RE KE).
Qed.
(** with np.log(D / (2 * PI * T2)) in _D_integral *)
Theorem C66_log_T2 : forall dl bR, (forall r r', r < nl -> r' < nl -> tm r' = tm r \/ (TMIN_D <= Rabs (tm r' - tm r))%R) ->
  let iD2 := rtd_D_with psi psi1 psi_re psi1_im psi2_re tm mu dl bR (fun D T1 T2 => ln (D / (2 * PI * T2))) in
  (forall off ij, kern dl iD2 (iX dl bR) off ij = kern dl (iD dl bR) (iX dl bR) off ij) /\
  (forall off phi l, current dl iD2 (iX dl bR) off phi l = current dl (iD dl bR) (iX dl bR) off phi l) /\
  (forall off nmany phi l, ecurrent dl iD2 (iX dl bR) off nmany phi l = ecurrent dl (iD dl bR) (iX dl bR) off nmany phi l).
Proof.
  intros dl bR TM iD2.
  destruct (C66_complete n name si L nl RS NS SY ALL tleads Tba v ixp T HT HS EC HX SH UR UC RT) as [AC LO].
  destruct (layout_states L LO) as (ND & Top & Bottom).
  apply (C66_logarithm psi psi1 psi_re psi1_im psi2_re L nl T (gam RRing n tleads) tm mu tmax ND Top Bottom AC BIG ns E tl pf inv imgt dl bR _ TM).
  reflexivity.
Qed.
End Built.
Print Assumptions C66_complete.
Print Assumptions C66_widths.
Print Assumptions C66_logarithm.
Print Assumptions C66_band_widths.
Print Assumptions C66_log_T2.

(** ** Without the anticommutation relation *)
(** two levels, each coupled to its own lead, the doubly occupied state removed *)
Definition w_sys := call_remove KDM (snd (call_init KDM 2 "charge")) (fst (call_init KDM 2 "charge")) [3].
Definition w_tl : list ((nat * nat) * Cx ZRing) := [((0, 0), ZC 1 0); ((1, 1), ZC 1 0)].
Definition w_si : SI := match w_sys with Some (s, _) => s | None => fst (call_init KDM 2 "charge") end.
Definition w_L : Lay := match w_sys with Some (_, d) => lay_of d | None => ex_L end.
Definition w_T (l a b : nat) : Cx ZRing := match construct_Tba ZRing w_si 2 w_tl zeros with Some t => t (l, a, b) | None => ZC 0 0 end.
Definition w_int (k : Z) (p eta : Z) (x1 x2 x3 : ZRing) (r0 r1 : nat) (b : bool) : Cx ZRing := ZC (k * p) 0.
Definition zis0 (z : Cx ZRing) : bool := (Z.eqb (re z) 0 && Z.eqb (im z) 0)%bool.
Definition w_kern (k : Z) (ij : Z * Z) : Z :=
  rtd_kern ZRing w_L 2 (fun _ => 0%Z) w_T (fun _ _ _ => 0%Z) 3%Z (fun _ _ => 1%Z) (fun _ _ => 1%Z) (fun _ _ => 1%Z) (w_int k) (w_int 0)
    zis0 zis0 (fun z => negb (zis0 z)) (fun _ => false) (fun _ _ => 0%Z) (fun _ _ => 0%Z) (fun _ _ => 0%Z) false ij.

Theorem C66_removed_refuted : exists si L T intD intD', system 2 "charge" si L /\ cons_states L = [0; 1; 2] /\
  construct_Tba ZRing si 2 w_tl zeros <> None /\ (forall t, construct_Tba ZRing si 2 w_tl zeros = Some t -> forall l a b, T l a b = t (l, a, b)) /\
  (forall c, NoDup (states L c)) /\ states L (Z.of_nat (ly_ncharge L)) = [] /\ states L (-1) = [] /\
  cut_exact ZRing L 2 T zis0 zis0 (fun z => negb (zis0 z)) /\ shifted ZRing L 2 T (fun _ => false) (fun _ _ _ _ => ZC 1 0) intD intD' /\
  let kern intD := rtd_kern ZRing L 2 (fun _ => 0%Z) T (fun _ _ _ => 0%Z) 3%Z (fun _ _ => 1%Z) (fun _ _ => 1%Z) (fun _ _ => 1%Z) intD (w_int 0)
    zis0 zis0 (fun z => negb (zis0 z)) (fun _ => false) (fun _ _ => 0%Z) (fun _ _ => 0%Z) (fun _ _ => 0%Z) false in
  map (fun i => map (fun j => kern intD' (i, j)) [0; 1; 2]%Z) [0; 1; 2]%Z = [[-4; -2; -2]; [2; 2; 0]; [2; 0; 2]]%Z /\
  map (fun i => map (fun j => kern intD (i, j)) [0; 1; 2]%Z) [0; 1; 2]%Z = [[0; 0; 0]; [0; 0; 0]; [0; 0; 0]]%Z.
Proof.
  exists w_si, w_L, w_T, (w_int 0), (w_int 1).
  assert (SY : system 2 "charge" w_si w_L).
  { destruct w_sys as [[s d]|] eqn:EW; [|vm_compute in EW; discriminate].
    replace w_si with s by (unfold w_si; now rewrite EW). replace w_L with (lay_of d) by (unfold w_L; now rewrite EW).
    constructor. eapply reach_remove; [apply reach_init; apply surjective_pairing|left; reflexivity| |exact EW].
    intros k [<-|[]]. simpl. lia. }
  pose proof (system_layout 2 "charge" w_si w_L ltac:(lia) ltac:(discriminate) SY) as LO.
  destruct (layout_states w_L LO) as (ND & Top & Bottom).
  split; [exact SY|]. split; [vm_compute; reflexivity|]. split; [vm_compute; discriminate|]. split.
  { intros t Ht l a b. unfold w_T. now rewrite Ht. }
  do 3 (split; [assumption|]). split.
  { assert (Z0 : forall z, zis0 z = true -> z = ZC 0 0).
    { intros [a b] H. unfold zis0 in H. apply andb_prop in H. destruct H as [H1 H2]. apply Z.eqb_eq in H1, H2. cbn in H1, H2. now subst. }
    split; [|split].
    - intros x _ H. now apply Z0.
    - intros x y _ _ H. now apply Z0.
    - intros t _ H. apply negb_false_iff in H. now apply Z0. }
  split.
  { intros p eta E1 E2 E3 r r' t [-> | ->] _ _ _; vm_compute; reflexivity. }
  split; vm_compute; reflexivity.
Qed.
Print Assumptions C66_removed_refuted.

(** ** Examples *)
(** two levels, two leads, complex amplitudes that couple every lead to every level: the kernels with two tables of integrals agree *)
Definition b_tl : list ((nat * nat) * Cx ZRing) := [((0, 0), ZC 1 2); ((0, 1), ZC 3 (-1)); ((1, 0), ZC 0 2); ((1, 1), ZC 1 1)].
Definition b_T (l a b : nat) : Cx ZRing := match construct_Tba ZRing ex_si 2 b_tl zeros with Some t => t (l, a, b) | None => ZC 0 0 end.
Definition b_E (a : nat) : Z := nth a [0; 1; 4; 6]%Z 0%Z.
Definition b_G (r r' : nat) (x y : ZRing) : Cx ZRing := ZC (x + y * Z.of_nat (1 + r)) (Z.of_nat r' - x * y).
Definition b_D (s : Z) (p eta : Z) (x1 x2 x3 : ZRing) (r r' : nat) (f : bool) : Cx ZRing :=
  radd (ZC (eta + x2 - x3) (p + x1)) (rmul (rmul (ZC s 0) (keld ZRing p)) (b_G r r' x1 x3)).
Definition b_X (p eta : Z) (x1 x2 x3 : ZRing) (r r' : nat) (f : bool) : Cx ZRing := ZC (p + x1 * eta) x3.
Definition b_ph (s : Z) (l : nat) (x : ZRing) : ZRing := (x * x - Z.of_nat l + s * (3 + Z.of_nat l))%Z.
Definition b_kern (s : Z) (ij : Z * Z) : Z :=
  rtd_kern ZRing ex_L 2 b_E b_T (fun _ _ _ => 1%Z) 3%Z (fun l x => (x - Z.of_nat l)%Z) (fun _ x => (2 - x)%Z) (b_ph s) (b_D s) b_X
    zis0 zis0 (fun z => negb (zis0 z)) (fun z => negb (Z.eqb (im z) 0)) (lnn ZRing ex_L b_E (fun x => x))
    (snd_im ZRing ex_L 2 b_E b_T 3%Z (fun l x => (x - Z.of_nat l)%Z) (fun _ x => (2 - x)%Z) (b_ph s))
    (snd_re ZRing ex_L 2 b_E b_T 3%Z (fun l x => (x - Z.of_nat l)%Z) (fun _ x => (2 - x)%Z) (b_ph s)) true ij.
Example C66_case : map (b_kern 0) (list_prod [0; 1; 2; 3]%Z [0; 1; 2; 3]%Z) = map (b_kern 7) (list_prod [0; 1; 2; 3]%Z [0; 1; 2; 3]%Z) /\
  map (b_kern 0) (list_prod [0; 1]%Z [0; 1; 2; 3]%Z) = [122648; 126146; 103358; 106848; -258550; -294016; -216576; -252034]%Z.
Proof. split; vm_compute; reflexivity. Qed.
(** the hypotheses of [C66_widths] for two levels, every one coupled to its own lead, at two temperatures *)
Definition t_z (l a b : nat) : Z :=
  nth b (nth a (nth l [[[0; 0; 1; 0]; [0; 0; 0; 1]; [1; 0; 0; 0]; [0; 1; 0; 0]]; [[0; 1; 0; 0]; [1; 0; 0; 0]; [0; 0; 0; -1]; [0; 0; -1; 0]]]%Z []) []) 0%Z.
Definition t_T (l a b : nat) : Cx RRing := cc (IZR (t_z l a b)) 0.
Definition t_tm (l : nat) : R := if l =? 0 then 1%R else 2%R.
Lemma t_states : forall c, states ex_L c = if (c =? 0)%Z then [0] else if (c =? 1)%Z then [1; 2] else if (c =? 2)%Z then [3] else
  if (c =? -4)%Z then [0] else if (c =? -3)%Z then [1; 2] else if (c =? -2)%Z then [3] else [].
Proof.
  intros c.
  destruct (Z_lt_le_dec c (-4)) as [H|H].
  - unfold states, py_nth. replace (0 <=? c)%Z with false by (symmetry; apply Z.leb_gt; lia).
    replace (- Z.of_nat (length (ly_statesdm ex_L)) <=? c)%Z with false by (symmetry; apply Z.leb_gt; vm_compute length; lia).
    repeat (match goal with |- context [(c =? ?k)%Z] => replace (c =? k)%Z with false by (symmetry; apply Z.eqb_neq; lia) end). reflexivity.
  - destruct (Z_lt_le_dec c 4) as [H4|H4].
    + assert (D : (c = -4 \/ c = -3 \/ c = -2 \/ c = -1 \/ c = 0 \/ c = 1 \/ c = 2 \/ c = 3)%Z) by lia.
      destruct D as [->|[->|[->|[->|[->|[->|[->| ->]]]]]]]; vm_compute; reflexivity.
    + unfold states, py_nth. replace (0 <=? c)%Z with true by (symmetry; apply Z.leb_le; lia).
      replace (nth_error (ly_statesdm ex_L) (Z.to_nat c)) with (@None (list nat)) by (symmetry; apply nth_error_None; vm_compute length; lia).
      repeat (match goal with |- context [(c =? ?k)%Z] => replace (c =? k)%Z with false by (symmetry; apply Z.eqb_neq; lia) end). reflexivity.
Qed.
Lemma t_in : forall c a, In a (states ex_L c) -> a < 4.
Proof.
  intros c a H. rewrite t_states in H. repeat (match type of H with context [if ?b then _ else _] => destruct b end); simpl in H; lia.
Qed.
Lemma t_amp : forall z, amp RRing ex_L 2 t_T z -> z = cc 0 0 \/ z = cc 1 0 \/ z = cc (-1) 0.
Proof.
  intros z (r & c & c' & a & b & Hr & Ha & Hb & Hz). apply t_in in Ha, Hb.
  assert (X : t_z r a b = 0%Z \/ t_z r a b = 1%Z \/ t_z r a b = (-1)%Z).
  { destruct r as [|[|r]]; [| |lia]; destruct a as [|[|[|[|a]]]]; try lia; destruct b as [|[|[|[|b]]]]; try lia; cbn; auto. }
  assert (Y : z = cc (IZR (t_z r a b)) 0).
  { destruct Hz as [-> | ->]; [reflexivity|]. apply cplx_eq; simpl; [reflexivity|]. match goal with |- @eq _ ?u ?v => change (@eq R u v) end. ring. }
  rewrite Y. destruct X as [-> |[-> | ->]]; auto.
Qed.
Example C66_widths_case : anticommute RRing ex_L 2 t_T (fun _ => cc 1 0) /\ above_cutoff ex_L 2 t_T 2 /\
  (forall t, prod4 RRing ex_L 2 t_T t -> cut_im 2 t = false) /\
  (forall r r', r < 2 -> r' < 2 -> (TMIN_X <= Rabs (t_tm r' - t_tm r))%R ->
     kept (band (fun l => (-60, 60)%R) r / 2) (t_tm r') [(1 / 3, 2)%R] = kept (band (fun l => (-90, 100)%R) r / 2) (t_tm r') [(1 / 3, 2)%R]) /\
  layout ex_L /\ cons_states ex_L = [0; 1; 2; 3].
Proof.
  split; [|split; [|split; [|split; [|split]]]].
  - intros r c a b Hr Hc Ha Hb.
    assert (D : (c = 0 \/ c = 1 \/ c = 2)%Z).
    { rewrite t_states in Ha. repeat (match type of Ha with context [(c =? ?k)%Z] => destruct (Z.eqb_spec c k); [lia|] end). destruct Ha. }
    destruct D as [->|[->| ->]]; rewrite t_states in Ha, Hb; rewrite !t_states; cbn [Z.eqb Z.add Z.sub Z.opp Pos.eqb Pos.add Z.pos_sub Pos.pred_double Pos.succ] in *;
      cbn [In] in Ha, Hb; destruct r as [|[|r]]; [| |lia| | |lia| | |lia];
      repeat (destruct Ha as [<-|Ha]; [|]); try contradiction; repeat (destruct Hb as [<-|Hb]; [|]); try contradiction;
      apply cplx_eq; simpl; match goal with |- @eq _ ?u ?v => change (@eq R u v) end; unfold t_z; cbn [nth]; ring.
  - split; [lra|]. intros z Hz. destruct (t_amp z Hz) as [-> |[-> | ->]]; [left; reflexivity|right; simpl; lra|right; simpl; lra].
  - intros t (x & y & z & w & Hx & Hy & Hz & Hw & ->).
    assert (I : forall z, amp RRing ex_L 2 t_T z -> @im RRing z = 0%R) by (intros u Hu; destruct (t_amp u Hu) as [-> |[-> | ->]]; reflexivity).
    assert (M : forall u u' : Cx RRing, @im RRing u = 0%R -> @im RRing u' = 0%R -> @im RRing (rmul u u') = 0%R).
    { intros u u' H H'. rewrite im_mul, H, H'. change (re u * 0 + 0 * re u' = 0)%R. ring. }
    unfold cut_im. rewrite !M by auto. rewrite Rabs_R0. destruct (Rlt_dec _ _) as [H|]; [|reflexivity]. exfalso. lra.
  - intros r r' Hr Hr' _. unfold kept, band. cbn [fst snd filter].
    assert (TT : (t_tm r' = 1 \/ t_tm r' = 2)%R) by (unfold t_tm; destruct (r' =? 0); auto).
    rewrite !(Rabs_left (-60)), !(Rabs_left (-90)), !(Rabs_right 60), !(Rabs_right 100) by lra.
    destruct TT as [-> | ->]; repeat destruct (Rlt_dec _ _); try reflexivity; lra.
  - apply (system_layout 2 "charge" ex_si); [lia|discriminate|]. constructor. apply reach_init. reflexivity.
  - vm_compute. reflexivity.
Qed.
