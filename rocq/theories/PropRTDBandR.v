(** C66, continued: the builder's matrices satisfy the anticommutation relation, and the code's integrals. *)
From Coq Require Import String List Arith Lia ZArith Bool Permutation Ring Reals Lra.
From Verif Require Import Base Bits Indexing IndexingProofs RemoveProofs Binom SsqProofs Qn
  PropIndexing DMIndex DMIndexProofs DMReach PropDMIndex CRing SpecFunc Layout Coherences Kernel KernelProofs Fock Operators OperatorsProofs PropOperators EnergiesProofs
  PropKernel MasterEq PropMaster Rates Rotate RotateProofs PropRotate BasisChange PropBasis PropBasisVec TunnelSquare RTDK RTDNd PropRTDBand.
Import ListNotations.
Open Scope nat_scope.
Local Notation length := List.length.
Local Notation Cr := (Cx RRing).
Add Ring RrB2 : (rth RRing).
Add Ring CrB2 : (rth Cr).

Section Built.
Local Open Scope rng_scope.
Variables (n : nat) (name : string) (si : SI) (L : Lay) (nleads : nat).
Hypotheses (RS : reachable_si n name [] si) (NS : ix_of name n <> IxSsq) (SY : system n name si L).
Local Notation m := (si_nmany si).
(** every state is considered *)
Hypothesis ALL : Permutation (cons_states L) (seq 0 m).
Variables (tleads : list ((nat * nat) * Cr)) (Tba : nat * nat * nat -> Cr) (v : Vecs RRing) (ixp : ix) (T : nat -> nat -> nat -> Cr).
Hypotheses (HT : forall l i t, In ((l, i), t) tleads -> (l < nleads /\ i < n)%nat)
  (HS : ixp <> IxLin -> ixp <> IxCharge -> spin_conserving RRing n nleads tleads)
  (EC : construct_Tba RRing si nleads tleads zeros = Some Tba)
  (HX : ixp = IxLin \/ ixp = ix_of name n)
  (SH : shaped RRing si v) (UR : unitary_rows RRing si v) (UC : unitary_columns RRing si v)
  (RT : forall l, (l < nleads)%nat -> rotate_Tba RRing si nleads ixp v (fun l i j => Tba (l, i, j)) l = Some (T l)).

Lemma lt_m : forall k, In k (seq 0 m) -> (k < m)%nat.
Proof. intros k Hk. apply in_seq in Hk. lia. Qed.
Lemma Hn_ : (1 <= n)%nat. Proof. apply RS. Qed.
Lemma HI_ : indexed n name si.
Proof. destruct RS as (_ & Hk & E & _). exists []. auto. Qed.

Lemma rot_lin : forall l, (l < nleads)%nat -> exists P, full_pmtr RRing si v = Some P /\
  (forall i j, (i < m)%nat -> (j < m)%nat -> T l i j = ndot RRing m (ct RRing P) (ndot RRing m (fun i j => Tba (l, i, j)) P) i j) /\
  (forall i j, (i < m)%nat -> (j < m)%nat -> rsum (fun k => P i k * conj (P j k)) (seq 0 m) = PropRotate.delta RRing i j) /\
  (forall i j, (i < m)%nat -> (j < m)%nat -> rsum (fun k => conj (P k i) * P k j) (seq 0 m) = PropRotate.delta RRing i j).
Proof.
  intros l Hl. destruct (C21_unitary RRing n name si v Hn_ HI_ SH UR) as (P & EP & U1).
  destruct (columns_unitary n name si v Hn_ HI_ SH UC) as (Q & EQ & U2 & _). assert (Q = P) by congruence. subst Q.
  exists P. split; auto. split; [|auto].
  assert (LIN : rotate_Tba RRing si nleads IxLin v (fun l i j => Tba (l, i, j)) l =
     Some (ndot RRing m (ct RRing P) (ndot RRing m (fun i j => Tba (l, i, j)) P))).
  { unfold rotate_Tba. now rewrite (proj2 (Nat.ltb_lt _ _) Hl), EP. }
  assert (DE : {ixp = IxLin} + {ixp <> IxLin}) by decide equality. destruct DE as [Ei|Ei].
  - pose proof (RT l Hl) as R. rewrite Ei, LIN in R. injection R as <-. reflexivity.
  - destruct HX as [H|H]; [contradiction|]. rewrite H in Ei, HS.
    destruct (C21_constructed RRing n name [] si nleads tleads Tba v l RS Ei HT (HS Ei) EC SH Hl) as (R & R' & E1 & E2 & SM).
    rewrite LIN in E2. injection E2 as <-. pose proof (RT l Hl) as E3. rewrite H, E1 in E3. injection E3 as <-. exact SM.
Qed.

(** the square of the rotated matrix *)
Lemma rot_square : forall l i j, (l < nleads)%nat -> (i < m)%nat -> (j < m)%nat ->
  rsum (fun x => T l i x * T l x j) (seq 0 m) = if i =? j then gam RRing n tleads l else 0.
Proof.
  intros l i j Hl Hi Hj. destruct (rot_lin l Hl) as (P & _ & HP & U1 & U2).
  set (t := fun i j => Tba (l, i, j)) in *. set (I := seq 0 m).
  assert (EL : forall i j, ndot RRing m (ct RRing P) (ndot RRing m t P) i j =
     rsum (fun p => rsum (fun q => conj (P p i) * t p q * P q j) I) I).
  { intros a b. unfold ndot, ct. apply (rsum_ext Cr). intros p _. rewrite <- (rsum_mul_l Cr). apply (rsum_ext Cr). intros. ring. }
  transitivity (rsum (fun p => rsum (fun q' => conj (P p i) * P q' j * rsum (fun q => t p q * t q q') I) I) I : Cr).
  - transitivity (rsum (fun x => rsum (fun p => rsum (fun q => rsum (fun p' => rsum (fun q' =>
        conj (P p i) * t p q * (P q x * conj (P p' x)) * t p' q' * P q' j) I) I) I) I) I : Cr).
    + apply (rsum_ext Cr). intros x Hx. apply lt_m in Hx. rewrite (HP i x), (HP x j), !EL by auto.
      rewrite <- (rsum_mul_r Cr). apply (rsum_ext Cr). intros p _. rewrite <- (rsum_mul_r Cr). apply (rsum_ext Cr). intros q _.
      rewrite <- (rsum_mul_l Cr). apply (rsum_ext Cr). intros p' _. rewrite <- (rsum_mul_l Cr). apply (rsum_ext Cr). intros q' _. ring.
    + rewrite (rsum_swap Cr). apply (rsum_ext Cr). intros p _.
      transitivity (rsum (fun q => rsum (fun p' => rsum (fun q' => conj (P p i) * t p q * PropRotate.delta RRing q p' * t p' q' * P q' j) I) I) I : Cr).
      * rewrite (rsum_swap Cr). apply (rsum_ext Cr). intros q Hq. apply lt_m in Hq. rewrite (rsum_swap Cr). apply (rsum_ext Cr). intros p' Hp'. apply lt_m in Hp'.
        rewrite (rsum_swap Cr). apply (rsum_ext Cr). intros q' _. rewrite <- (U1 q p' Hq Hp').
        transitivity (rsum (fun x => (conj (P p i) * t p q * t p' q' * P q' j) * (P q x * conj (P p' x))) I : Cr);
          [apply (rsum_ext Cr); intros; ring|]. rewrite (rsum_mul_l Cr). fold I. ring.
      * transitivity (rsum (fun q => rsum (fun q' => conj (P p i) * P q' j * (t p q * t q q')) I) I : Cr).
        -- apply (rsum_ext Cr). intros q Hq. apply lt_m in Hq. rewrite (rsum_swap Cr). apply (rsum_ext Cr). intros q' _.
           rewrite <- (sum_delta RRing m (fun p' => conj (P p i) * P q' j * (t p q * t p' q')) q Hq). apply (rsum_ext Cr). intros p' _.
           unfold PropRotate.delta. rewrite (Nat.eqb_sym q p'). ring.
        -- rewrite (rsum_swap Cr). apply (rsum_ext Cr). intros q' _. now rewrite (rsum_mul_l Cr).
  - transitivity (rsum (fun p => conj (P p i) * P p j * gam RRing n tleads l) I : Cr).
    + apply (rsum_ext Cr). intros p Hp. apply lt_m in Hp.
      rewrite <- (sum_delta RRing m (fun q' => conj (P p i) * P q' j * gam RRing n tleads l) p Hp). apply (rsum_ext Cr). intros q' Hq'. apply lt_m in Hq'.
      unfold I, t. rewrite (Tba_square RRing n name si nleads tleads Tba RS HT EC l p q' Hp Hq'). unfold PropRotate.delta. rewrite (Nat.eqb_sym q' p).
      destruct (p =? q'); ring.
    + rewrite (rsum_mul_r Cr). unfold I. rewrite (U2 i j Hi Hj). unfold PropRotate.delta. destruct (i =? j); ring.
Qed.

Lemma rot_hermitian : forall l i j, (l < nleads)%nat -> (i < m)%nat -> (j < m)%nat -> T l i j = conj (T l j i).
Proof.
  intros l i j Hl. apply (C21_hermitian_and_selection RRing n name si nleads ixp v _ l (T l) Hn_ HI_ HX SH (RT l Hl)).
  intros a b Ha Hb. apply (C13_hermitian_and_selection RRing n name [] si nleads tleads Tba RS HT EC l a b Ha Hb).
Qed.
Lemma cr_dec : forall z : Cr, z = 0 \/ z <> 0.
Proof.
  intros z. destruct (Req_EM_T (re z) 0) as [A|A].
  - destruct (Req_EM_T (im z) 0) as [B|B].
    + left. apply cplx_eq; assumption.
    + right. intros ->. now apply B.
  - right. intros ->. now apply A.
Qed.
Lemma rot_selection : forall l i j, (l < nleads)%nat -> (i < m)%nat -> (j < m)%nat ->
  charge_of si i <> S (charge_of si j) -> charge_of si j <> S (charge_of si i) -> T l i j = 0.
Proof.
  intros l i j Hl Hi Hj N1 N2. pose proof (reachable_correct _ _ _ _ RS) as RC.
  destruct (gs_ex _ _ _ RC i Hi) as (s & Es & Ls). destruct (gs_ex _ _ _ RC j Hj) as (s' & Es' & Ls').
  unfold PropKernel.charge_of in N1, N2. rewrite Es, Es' in N1, N2.
  assert (LT : forall a sa, get_state si a = Some sa -> (a < m)%nat).
  { intros a sa Q. destruct (indexed_facts _ _ _ Hn_ HI_) as (_ & _ & _ & live & OK & _). rewrite (ok_nmany _ _ OK).
    unfold get_state in Q. apply nth_error_Some. now destruct (nth_error (si_i si) a). }
  apply (proj2 (C21_hermitian_and_selection RRing n name si nleads ixp v _ l (T l) Hn_ HI_ HX SH (RT l Hl))) with (s := s) (s' := s'); auto.
  - intros a b sa sb Ea Eb Nn. destruct (cr_dec (Tba (l, a, b))) as [Z|Z]; auto. exfalso. apply Nn. unfold neighbours.
    destruct (C13_hermitian_and_selection RRing n name [] si nleads tleads Tba RS HT EC l a b (LT _ _ Ea) (LT _ _ Eb)) as (_ & S).
    specialize (S sa sb Ea Eb Z). lia.
  - unfold neighbours. lia.
Qed.

Lemma states_below : forall c, (c < Z.of_nat (ly_ncharge L))%Z -> (0 <= c)%Z -> In c (charges L).
Proof. intros c H1 H2. apply in_map_iff. exists (Z.to_nat c). split; [lia|]. apply in_seq. lia. Qed.
Lemma over_charges : forall (g : Z -> Cr) z, (0 <= z + 1)%Z -> states L (-1) = [] -> (forall c, states L c = [] -> g c = 0) ->
  (forall c, (0 <= c)%Z -> states L c <> [] -> (c < Z.of_nat (ly_ncharge L))%Z) ->
  rsum (fun c => if (c =? z)%Z then g c else 0) (charges L) = g z.
Proof.
  intros g z Hz B G0 HR. destruct (Z.eq_dec z (-1)) as [->|Hm].
  - rewrite (G0 _ B). apply (rsum_0 Cr). intros c Hc. apply charges_in in Hc. destruct (Z.eqb_spec c (-1)); [lia|reflexivity].
  - destruct (states L z) as [|x l] eqn:Es.
    + rewrite (G0 z Es). apply (rsum_0 Cr). intros c _. destruct (Z.eqb_spec c z) as [->|]; auto.
    + rewrite (rsum_single Cr _ _ _ z).
      * now rewrite Z.eqb_refl.
      * apply FinFun.Injective_map_NoDup; [intros a b; lia|apply seq_NoDup].
      * apply states_below; [apply HR|]; try lia. rewrite Es. discriminate.
      * intros c _ Hne. now apply Z.eqb_neq in Hne as ->.
Qed.

(** ** The tunnelling matrices of a system without removed states anticommute *)
Theorem C66_complete : anticommute RRing L nleads T (gam RRing n tleads) /\ layout L.
Proof.
  pose proof (system_layout n name si L Hn_ NS SY) as LO. split; [|exact LO].
  intros r c a b Hr Hc Ha Hb.
  assert (CH : forall c b, (0 <= c)%Z -> In b (states L c) -> charge_of si b = Z.to_nat c) by apply (system_charge n name si L Hn_ NS SY).
  assert (RG : forall c x, (0 <= c)%Z -> In x (states L c) -> (c < Z.of_nat (ly_ncharge L))%Z) by apply (lo_range L LO).
  assert (IN : forall c x, (0 <= c)%Z -> In x (states L c) -> (x < m)%nat).
  { intros c0 x H0 Hx. apply lt_m. apply (Permutation_in _ ALL). apply in_flat_map. exists c0. split; auto. apply states_below; eauto. }
  pose proof (IN c a Hc Ha) as La. pose proof (IN c b Hc Hb) as Lb.
  assert (NE : forall c, (0 <= c)%Z -> states L c <> [] -> (c < Z.of_nat (ly_ncharge L))%Z).
  { intros c0 H0 H1. destruct (states L c0) as [|x l] eqn:Es; [easy|]. apply (RG c0 x); auto. rewrite Es. now left. }
  set (g := fun c => rsum (fun x => T r b x * T r x a) (states L c)).
  assert (G0 : forall c, states L c = [] -> g c = 0) by (intros c0 E0; unfold g; now rewrite E0).
  transitivity (g (c + 1)%Z + g (c - 1)%Z).
  { unfold g. f_equal.
    - apply (rsum_ext Cr). intros x Hx. rewrite (rot_hermitian r b x) by (auto; apply (IN (c + 1)%Z); auto; lia). ring.
    - destruct (Z.eq_dec c 0) as [->|Hc0]; [cbn; now rewrite (lo_below L LO)|].
      apply (rsum_ext Cr). intros x Hx. rewrite (rot_hermitian r x a) by (auto; apply (IN (c - 1)%Z); auto; lia). ring. }
  transitivity (rsum (fun x => T r b x * T r x a) (cons_states L) : Cr).
  - unfold cons_states. rewrite (rsum_flat_map Cr).
    rewrite <- (over_charges g (c + 1)%Z ltac:(lia) (lo_below L LO) G0 NE), <- (over_charges g (c - 1)%Z ltac:(lia) (lo_below L LO) G0 NE), <- (rsum_plus Cr).
    apply (rsum_ext Cr). intros c' Hc'. apply charges_in in Hc'. fold (g c').
    destruct (Z.eqb_spec c' (c + 1)), (Z.eqb_spec c' (c - 1)); try lia; [ring|ring|].
    transitivity (0 : Cr); [ring|]. symmetry. apply (rsum_0 Cr). intros x Hx.
    rewrite (rot_selection r b x) by (auto; try (apply (IN c'); auto; lia); rewrite (CH c b), (CH c' x) by (auto; lia); lia). ring.
  - rewrite (rsum_perm Cr _ _ _ _ ALL), (rot_square r b a Hr Lb La). now rewrite Nat.eqb_sym.
Qed.
Lemma layout_states : layout L -> (forall c, NoDup (states L c)) /\ states L (Z.of_nat (ly_ncharge L)) = [] /\ states L (-1) = [].
Proof.
  intros LO. split; [|split; apply LO]. intros c. destruct (Z_le_gt_dec 0 c) as [H|H]; [now apply (lo_nodup L LO)|].
  unfold states, py_nth. replace (0 <=? c)%Z with false by (symmetry; apply Z.leb_gt; lia).
  destruct (- Z.of_nat (length (ly_statesdm L)) <=? c)%Z eqn:E2; [|constructor]. apply Z.leb_le in E2.
  pose proof (lo_nodup L LO (Z.of_nat (length (ly_statesdm L)) + c)%Z ltac:(lia)) as N.
  unfold states, py_nth in N. replace (0 <=? Z.of_nat (length (ly_statesdm L)) + c)%Z with true in N by (symmetry; apply Z.leb_le; lia). exact N.
Qed.
End Built.
