(** The first-order kernels and currents for any well-formed layout whose lists hold the states by their
    number of electrons [N_].  PropKernel.v uses it for systems of single-particle states, PropManyBody.v
    for systems given by their many-body states. *)
From Coq Require Import String List Arith Lia ZArith Bool Permutation Ring QArith.
From Verif Require Import Base Bits Indexing IndexingProofs RemoveProofs Binom SsqProofs Qn
  PropIndexing DMIndex DMIndexProofs DMReach PropDMIndex CRing Layout Coherences Kernel KernelProofs
  PauliProofs CohProofs CohKernels CohCurrents.
Import ListNotations.
Open Scope nat_scope.
Local Notation length := List.length.

(** ** Vocabulary of the statements *)
Section Spec.
Variable K : CRing.
Local Open Scope rng_scope.
Fixpoint rnat (n : nat) : K := match n with O => 0 | S n' => rnat n' + 1 end.
(** (M phi)_i for a matrix with [size] columns is [act K size M phi i]. *)
(** Sum over all considered states b of w(b) times the kernel row of the element (b, b) applied to phi *)
Definition weighted_action (L : Lay) (size : nat) (kern : Z * Z -> K) (phi : Z -> K) (w : nat -> K) : K :=
  rsum (fun c => rsum (fun b => w b * act K size kern phi (ind0 L b b c)) (states L c)) (charges L).
(** phi is a stationary vector *)
Definition stationary (size : nat) (kern : Z * Z -> K) (phi : Z -> K) : Prop :=
  forall i, i < size -> act K size kern phi (Z.of_nat i) = 0.
(** sum of the diagonal (trace) rows in column j *)
Definition trace_column (L : Lay) (kern : Z * Z -> K) (j : nat) : K :=
  rsum (fun i => kern (Z.of_nat i, Z.of_nat j)) (seq 0 (ly_npauli L)).
Definition hermitian (T : nat -> nat -> nat -> Cx K) : Prop := forall l a b, conj (T l a b) = T l b a.
End Spec.

Section Gen.
Variable K : CRing.
Local Notation C := (Cx K).
Local Open Scope rng_scope.
Add Ring KrP : (rth K).
Add Ring CrP : (rth (Cx K)).
Variable L : Lay.
Hypothesis LO : layout L.
Variable N_ : nat -> nat.
Hypothesis CH : forall c b, (0 <= c)%Z -> In b (states L c) -> N_ b = Z.to_nat c.

Lemma rnat_step : forall q, (0 <= q)%Z -> rnat K (Z.to_nat (q + 1)) - rnat K (Z.to_nat q) = 1.
Proof. intros q Hq. replace (Z.to_nat (q + 1)) with (S (Z.to_nat q)) by lia. cbn [rnat]. ring. Qed.

Lemma gen_stationary_weighted : forall size kern phi w, (ly_npauli L <= size)%nat -> stationary K size kern phi ->
  weighted_action K L size kern phi w = 0.
Proof.
  intros size kern phi w Hs ST. unfold weighted_action. apply (rsum_0 K). intros c Hc. apply charges_in in Hc.
  apply (rsum_0 K). intros b Hb. destruct (lo_diag L LO b c ltac:(lia) Hb) as (B & _).
  rewrite <- (Z2Nat.id (ind0 L b b c)) by lia. rewrite ST by lia. ring.
Qed.

Lemma gen_trace_weighted : forall size kern j, (j < size)%nat ->
  weighted_action K L size kern (unit_vec K (Z.of_nat j)) (fun _ => 1) = trace_column K L kern j.
Proof.
  intros size kern j Hj. unfold weighted_action, trace_column.
  rewrite <- (diag_sum K L LO (fun i => kern (i, Z.of_nat j))). apply rsum_ext. intros c _. apply rsum_ext. intros b _.
  rewrite act_unit by auto. ring.
Qed.

(** *** C23 *)
Lemma gen_pauli_columns : forall nl pf j, (j < ly_npauli L)%nat ->
  trace_column K L (kern_of K L (pauli_calls K L nl pf)) j = 0.
Proof.
  intros nl pf j Hj. rewrite <- (gen_trace_weighted (ly_npauli L)) by auto. unfold weighted_action.
  rewrite (pauli_weighted K L LO nl pf (unit_vec K (Z.of_nat j)) (fun _ => 1)).
  apply (rsum_0 K). intros l _. apply (rsum_0 K). intros q _. apply (rsum_0 K). intros c _. apply (rsum_0 K). intros b _. ring.
Qed.

(** *** C24 *)
Lemma pauli_current_weighted : forall nl pf phi,
  rsum (pauli_current K L phi pf) (leads nl) =
  weighted_action K L (ly_npauli L) (kern_of K L (pauli_calls K L nl pf)) phi (fun b => rnat K (N_ b)).
Proof.
  intros nl pf phi. unfold weighted_action. rewrite (pauli_weighted K L LO nl pf phi (fun b => rnat K (N_ b))).
  apply rsum_ext. intros l _. unfold pauli_current. apply rsum_ext. intros q Hq.
  assert (0 <= q)%Z by (unfold charges1 in Hq; apply in_map_iff in Hq; destruct Hq as (? & <- & _); lia).
  apply rsum_ext. intros c Hc. apply rsum_ext. intros b Hb.
  rewrite (CH (q + 1)%Z c ltac:(lia) Hc), (CH _ _ H Hb), rnat_step by auto. ring.
Qed.

Lemma gen_pauli_currents : forall nl pf phi E,
  let kern := kern_of K L (pauli_calls K L nl pf) in
  rsum (pauli_current K L phi pf) (leads nl) =
    weighted_action K L (ly_npauli L) kern phi (fun b => rnat K (N_ b)) /\
  rsum (pauli_energy_current K L phi pf E) (leads nl) = weighted_action K L (ly_npauli L) kern phi E /\
  (stationary K (ly_npauli L) kern phi ->
     rsum (pauli_current K L phi pf) (leads nl) = 0 /\ rsum (pauli_energy_current K L phi pf E) (leads nl) = 0) /\
  (forall mu l, heat_of K (pauli_current K L phi pf) (pauli_energy_current K L phi pf E) mu l =
     pauli_energy_current K L phi pf E l - mu l * pauli_current K L phi pf l).
Proof.
  intros nl pf phi E kern.
  assert (A : rsum (pauli_current K L phi pf) (leads nl) =
    weighted_action K L (ly_npauli L) kern phi (fun b => rnat K (N_ b))) by apply pauli_current_weighted.
  assert (B : rsum (pauli_energy_current K L phi pf E) (leads nl) = weighted_action K L (ly_npauli L) kern phi E).
  { unfold weighted_action, kern. rewrite (pauli_weighted K L LO nl pf phi E).
    apply rsum_ext. intros l _. unfold pauli_energy_current. apply rsum_ext. intros q _.
    apply rsum_ext. intros c _. apply rsum_ext. intros b _. ring. }
  split; auto. split; auto. split.
  - intros ST. rewrite A, B. split; apply gen_stationary_weighted; auto.
  - intros mu l. unfold heat_of. ring.
Qed.

(** *** C27 *)
Lemma gen_lindblad : forall nl h tL E, h + h = 1 ->
  let kern := kern_of K L (lindblad_calls K L nl h tL E) in
  (forall j, (j < ly_ndm0r L)%nat -> trace_column K L kern j = 0) /\
  (forall phi, rsum (lindblad_current K L phi tL) (leads nl) =
     weighted_action K L (ly_ndm0r L) kern phi (fun b => rnat K (N_ b))) /\
  (forall phi, rsum (lindblad_energy_current K L phi h tL E) (leads nl) =
     weighted_action K L (ly_ndm0r L) kern phi E) /\
  (forall phi, stationary K (ly_ndm0r L) kern phi ->
     rsum (lindblad_current K L phi tL) (leads nl) = 0 /\ rsum (lindblad_energy_current K L phi h tL E) (leads nl) = 0) /\
  (forall phi mu l, heat_of K (lindblad_current K L phi tL) (lindblad_energy_current K L phi h tL E) mu l =
     lindblad_energy_current K L phi h tL E l - mu l * lindblad_current K L phi tL l).
Proof.
  intros nl h tL E Hh kern.
  assert (W : forall phi w, rsum (lindblad_energy_current K L phi h tL w) (leads nl) =
                            weighted_action K L (ly_ndm0r L) kern phi w).
  { intros phi w. rewrite lin_energy by exact LO. symmetry. apply (lin_total K L LO). }
  assert (A : forall phi, rsum (lindblad_current K L phi tL) (leads nl) =
     weighted_action K L (ly_ndm0r L) kern phi (fun b => rnat K (N_ b))).
  { intros phi. rewrite <- W. apply rsum_ext. intros l _. symmetry. apply (lin_charge K L LO); auto.
    - intros c a b Hc Ha Hb. now rewrite (CH _ _ Hc Ha), (CH _ _ Hc Hb).
    - intros c a b Hc Ha Hb. rewrite (CH _ _ Hc Ha), (CH (c + 1)%Z b ltac:(lia) Hb).
      replace (Z.to_nat (c + 1)) with (S (Z.to_nat c)) by lia. reflexivity. }
  assert (NR : (ly_npauli L <= ly_ndm0r L)%nat) by (rewrite (lo_size L LO); lia).
  split; [|split; [|split; [|split]]]; auto.
  - intros j Hj. rewrite <- (gen_trace_weighted (ly_ndm0r L)) by auto. rewrite <- W. apply (rsum_0 K). intros l _.
    apply lin_unit; auto.
  - intros phi ST. rewrite A, W. split; apply gen_stationary_weighted; auto.
  - intros. unfold heat_of. ring.
Qed.

(** *** C28, C29 *)
Lemma trace_of_links : forall E cpl P Bup Bdn nl,
  (forall b bp c x, el L b bp c -> In x (cpl b bp c) -> call_ok K L b bp c x /\
     (match x with CEnergy _ _ _ _ _ => False | _ => True end)) ->
  (forall phi b c, (0 <= c)%Z -> In b (states L c) ->
    rsum (gval K L phi) (cpl b b c) =
    row_in K nl P b (states L (c - 1)) (Bup (c - 1)%Z) (fun a ap => rho K L phi a ap (c - 1)%Z) +
    row_out2 K nl P b (states L (c - 1)) (states L c) (Bdn (c - 1)%Z) (fun a ap => rho K L phi a ap c) +
    row_out1 K nl P b (states L (c + 1)) (states L c) (Bup c) (fun a ap => rho K L phi a ap c) +
    row_in K nl P b (states L (c + 1)) (Bdn c) (fun a ap => rho K L phi a ap (c + 1)%Z)) ->
  (forall j, (j < ly_ndm0r L)%nat -> trace_column K L (kern_of K L (generate_kern K L E cpl)) j = 0) /\
  (forall phi, weighted_action K L (ly_ndm0r L) (kern_of K L (generate_kern K L E cpl)) phi (fun b => rnat K (N_ b)) =
     rsum (fun q => im (J K L phi nl P Bup Bdn q)) (charges1 L)).
Proof.
  intros E cpl P Bup Bdn nl CPL ROWS. split.
  - intros j Hj. rewrite <- (gen_trace_weighted (ly_ndm0r L)) by auto.
    unfold weighted_action. rewrite (coh_weighted K L LO _ nl P Bup Bdn E cpl CPL (ROWS _) (fun _ => 1)).
    rewrite (rsum_0 C); auto. intros q _. replace (1 - 1) with (0 : K) by ring. change (ofR 0) with (r0 : C). ring.
  - intros phi. unfold weighted_action.
    rewrite (rsum_ext K _ _ (fun c => rsum (fun b => rnat K (Z.to_nat c) *
      act K (ly_ndm0r L) (kern_of K L (generate_kern K L E cpl)) phi (ind0 L b b c)) (states L c)) (charges L)).
    2:{ intros c Hc. apply charges_in in Hc. apply rsum_ext. intros b Hb. now rewrite (CH c b) by (auto; lia). }
    rewrite (coh_weighted K L LO phi nl P Bup Bdn E cpl CPL (ROWS _) (fun c => rnat K (Z.to_nat c))).
    rewrite rsum_im. apply rsum_ext. intros q Hq.
    assert (0 <= q)%Z by (unfold charges1 in Hq; apply in_map_iff in Hq; destruct Hq as (? & <- & _); lia).
    rewrite rnat_step by auto. rewrite im_mul. cbn [re im ofR]. ring.
Qed.

Lemma gen_vn1 : forall nl T F E,
  let kern := kern_of K L (vn1_calls K L nl T F E) in
  (forall j, (j < ly_ndm0r L)%nat -> trace_column K L kern j = 0) /\
  (hermitian K T -> forall phi, rsum (vn1_current K L phi T F) (leads nl) =
     weighted_action K L (ly_ndm0r L) kern phi (fun b => rnat K (N_ b))) /\
  (hermitian K T -> forall phi, stationary K (ly_ndm0r L) kern phi -> rsum (vn1_current K L phi T F) (leads nl) = 0).
Proof.
  intros nl T F E kern.
  destruct (trace_of_links E (vn1_coupling K L nl T F) (P1 K T) (vn_up K L F) (vn_dn K L F) nl) as (A & B).
  { apply vn1_ok; auto. }
  { intros phi b c Hc Hb. apply vn1_rows; auto. }
  assert (NR : (ly_npauli L <= ly_ndm0r L)%nat) by (rewrite (lo_size L LO); lia).
  assert (Cu : hermitian K T -> forall phi, rsum (vn1_current K L phi T F) (leads nl) =
     weighted_action K L (ly_ndm0r L) kern phi (fun b => rnat K (N_ b))).
  { intros HT phi. rewrite (vn1_current_sum K L LO phi nl T F HT). symmetry. apply B. }
  split; auto. split; auto. intros HT phi ST. rewrite Cu by auto. apply gen_stationary_weighted; auto.
Qed.

Lemma gen_redfield : forall nl T F E,
  let kern := kern_of K L (red_calls K L nl T F E) in
  (forall j, (j < ly_ndm0r L)%nat -> trace_column K L kern j = 0) /\
  (hermitian K T -> forall phi, rsum (red_current K L phi T F) (leads nl) =
     weighted_action K L (ly_ndm0r L) kern phi (fun b => rnat K (N_ b))) /\
  (hermitian K T -> forall phi, stationary K (ly_ndm0r L) kern phi -> rsum (red_current K L phi T F) (leads nl) = 0).
Proof.
  intros nl T F E kern.
  destruct (trace_of_links E (red_coupling K L nl T F) (P1 K T) (rd_up K L F) (rd_dn K L F) nl) as (A & B).
  { apply red_ok; auto. }
  { intros phi b c Hc Hb. apply red_rows; auto. }
  assert (NR : (ly_npauli L <= ly_ndm0r L)%nat) by (rewrite (lo_size L LO); lia).
  assert (Cu : hermitian K T -> forall phi, rsum (red_current K L phi T F) (leads nl) =
     weighted_action K L (ly_ndm0r L) kern phi (fun b => rnat K (N_ b))).
  { intros HT phi. rewrite (red_current_sum K L LO phi nl T F HT). symmetry. apply B. }
  split; auto. split; auto. intros HT phi ST. rewrite Cu by auto. apply gen_stationary_weighted; auto.
Qed.

(** *** C33 *)
Lemma gen_readout : forall phi,
  (forall b bp c, (0 <= c)%Z -> In b (states L c) -> In bp (states L c) ->
     rho K L phi bp b c = conj (rho K L phi b bp c)) /\
  (forall b c, (0 <= c)%Z -> In b (states L c) -> im (rho K L phi b b c) = 0) /\
  (* the sum of the diagonal elements = norm_vec . phi = get_phi0_norm *)
  rsum (fun c => rsum (fun b => re (rho K L phi b b c)) (states L c)) (charges L) =
    rsum (fun k => norm_vec K L (Z.of_nat k) * phi (Z.of_nat k)) (seq 0 (ly_ndm0r L)) /\
  rsum (fun c => rsum (fun b => re (rho K L phi b b c)) (states L c)) (charges L) = phi0_norm K L phi.
Proof.
  intros phi.
  assert (D : rsum (fun c => rsum (fun b => re (rho K L phi b b c)) (states L c)) (charges L) = phi0_norm K L phi).
  { apply rsum_ext. intros c Hc. apply charges_in in Hc. apply rsum_ext. intros b Hb.
    now rewrite (rho_diag_real K L LO phi b c) by (auto; lia). }
  split; [|split; [|split]]; auto.
  - intros b bp c Hc Hb Hbp. rewrite (rho_herm K L LO phi b bp c Hc Hb Hbp). reflexivity.
  - intros b c Hc Hb. rewrite (rho_diag_real K L LO phi b c) by auto. reflexivity.
  - rewrite D. unfold phi0_norm.
    assert (NV : forall k, norm_vec K L k = rsum (fun c => rsum (fun b => if Z.eq_dec k (ind0 L b b c) then 1 else 0) (states L c)) (charges L)).
    { intros k. unfold norm_vec. rewrite run_updates_sum, rsum_flat_map. unfold zeros.
      etransitivity; [apply (Radd_0_l (rth K))|]. apply rsum_ext. intros c _. rewrite rsum_map. apply rsum_ext.
      intros b _. reflexivity. }
    rewrite (rsum_ext K _ _ (fun k => rsum (fun c => rsum (fun b => (if Z.eq_dec (Z.of_nat k) (ind0 L b b c) then 1 else 0) * phi (Z.of_nat k))
       (states L c)) (charges L)) (seq 0 (ly_ndm0r L))).
    2:{ intros k _. rewrite NV, <- rsum_mul_r. apply rsum_ext. intros c _. now rewrite <- rsum_mul_r. }
    symmetry. etransitivity; [apply rsum_swap|]. apply rsum_ext. intros c Hc. apply charges_in in Hc.
    etransitivity; [apply rsum_swap|]. apply rsum_ext. intros b Hb.
    destruct (lo_diag L LO b c ltac:(lia) Hb) as (B & _).
    rewrite (rsum_ext K _ _ (fun k => if Nat.eqb k (Z.to_nat (ind0 L b b c)) then phi (Z.of_nat k) else 0)).
    2:{ intros k Hk. destruct (Z.eq_dec (Z.of_nat k) (ind0 L b b c)) as [e|e], (Nat.eqb_spec k (Z.to_nat (ind0 L b b c))); try ring; lia. }
    rewrite rsum_if_nat; [now rewrite Z2Nat.id by lia|apply seq_NoDup|apply in_seq; rewrite (lo_size L LO); lia].
Qed.
End Gen.
