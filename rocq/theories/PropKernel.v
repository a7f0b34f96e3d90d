(** Properties C23, C24, C27, C28, C29, C33: the first-order kernels and currents. *)
From Coq Require Import String List Arith Lia ZArith Bool Permutation Ring QArith.
From Verif Require Import Base Bits Indexing IndexingProofs RemoveProofs Binom SsqProofs Qn
  PropIndexing DMIndex DMIndexProofs DMReach PropDMIndex CRing Layout Coherences Kernel KernelProofs
  PauliProofs CohProofs CohKernels CohCurrents.
From Verif Require Export KernelGen.
Import ListNotations.
Open Scope nat_scope.
Local Notation length := List.length.

(** ** Systems: the state-indexing objects that reach the solver.
    Any history of the indexing object (state selections, removed Fock states), optionally followed
    by one remove_coherences with some energies and dE >= 0. *)
Inductive system (n : nat) (name : string) (si : SI) : Lay -> Prop :=
| sys_plain : forall dm, reach KDM n name si dm -> system n name si (lay_of dm)
| sys_removed : forall dm E dE L, reach KDM n name si dm -> 1 <= dm_npauli dm -> (0 <= dE)%Q ->
    remove_coherences (qfar E dE) (lay_of dm) = Some L -> system n name si L.

(** the number of electrons in state [b] *)
Definition charge_of (si : SI) (b : nat) : nat :=
  match get_state si b with Some s => electrons s | None => 0 end.

Lemma system_layout : forall n name si L, 1 <= n -> ix_of name n <> IxSsq -> system n name si L -> layout L.
Proof.
  intros n name si L Hn Hix [dm R|dm E dE L' R Hp HE RM].
  - eapply layout_reach; eauto.
  - apply (layout_removed (qfar E dE) (qfar_sym E dE) (fun b => qfar_diag E dE b HE) (lay_of dm)
      (layout_reach _ _ _ _ Hn Hix R) (fresh_reach _ _ _ _ Hn Hix R) Hp L' RM).
Qed.

Lemma system_charge : forall n name si L, 1 <= n -> ix_of name n <> IxSsq -> system n name si L ->
  forall c b, (0 <= c)%Z -> In b (states L c) -> charge_of si b = Z.to_nat c.
Proof.
  intros n name si L Hn Hix SY c b Hc Hb. destruct (zc c Hc) as (k & ->). rewrite Nat2Z.id.
  assert (X : exists dm, reach KDM n name si dm /\ states L (Z.of_nat k) = states (lay_of dm) (Z.of_nat k)).
  { destruct SY as [dm R|dm E dE L' R Hp HE RM]; exists dm; split; auto.
    destruct (rm_fields (qfar E dE) (qfar_sym E dE) (fun b => qfar_diag E dE b HE) (lay_of dm)
      (layout_reach _ _ _ _ Hn Hix R) (fresh_reach _ _ _ _ Hn Hix R) Hp L' RM) as (_ & _ & _ & _ & _ & ST & _).
    apply ST. }
  destruct X as (dm & R & EQ). rewrite EQ, states_nat in Hb.
  destruct (considered_charge KDM n name si dm Hn R k b Hb) as (_ & s & Es & Hs).
  unfold charge_of. now rewrite Es.
Qed.

Section Props.
Variable K : CRing.
Local Notation C := (Cx K).
Local Open Scope rng_scope.
Variables (n : nat) (name : string) (si : SI) (L : Lay).
Hypotheses (Hn : (1 <= n)%nat) (Hix : ix_of name n <> IxSsq) (SY : system n name si L).
Let LO : layout L := system_layout n name si L Hn Hix SY.
Let CH := system_charge n name si L Hn Hix SY.

Lemma stationary_weighted : forall size kern phi w, (ly_npauli L <= size)%nat -> stationary K size kern phi ->
  weighted_action K L size kern phi w = 0.
Proof. exact (gen_stationary_weighted K L LO). Qed.
Lemma trace_weighted : forall size kern j, (j < size)%nat ->
  weighted_action K L size kern (unit_vec K (Z.of_nat j)) (fun _ => 1) = trace_column K L kern j.
Proof. exact (gen_trace_weighted K L LO). Qed.

(** *** C23 *)
Theorem C23_pauli_columns : forall nl pf j, (j < ly_npauli L)%nat ->
  trace_column K L (kern_of K L (pauli_calls K L nl pf)) j = 0.
Proof. exact (gen_pauli_columns K L LO). Qed.

(** *** C24 *)
Theorem C24_pauli_currents : forall nl pf phi E,
  let kern := kern_of K L (pauli_calls K L nl pf) in
  rsum (pauli_current K L phi pf) (leads nl) =
    weighted_action K L (ly_npauli L) kern phi (fun b => rnat K (charge_of si b)) /\
  rsum (pauli_energy_current K L phi pf E) (leads nl) = weighted_action K L (ly_npauli L) kern phi E /\
  (stationary K (ly_npauli L) kern phi ->
     rsum (pauli_current K L phi pf) (leads nl) = 0 /\ rsum (pauli_energy_current K L phi pf E) (leads nl) = 0) /\
  (forall mu l, heat_of K (pauli_current K L phi pf) (pauli_energy_current K L phi pf E) mu l =
     pauli_energy_current K L phi pf E l - mu l * pauli_current K L phi pf l).
Proof. exact (gen_pauli_currents K L LO (charge_of si) CH). Qed.

(** *** C27 *)
Theorem C27_lindblad : forall nl h tL E, h + h = 1 ->
  let kern := kern_of K L (lindblad_calls K L nl h tL E) in
  (forall j, (j < ly_ndm0r L)%nat -> trace_column K L kern j = 0) /\
  (forall phi, rsum (lindblad_current K L phi tL) (leads nl) =
     weighted_action K L (ly_ndm0r L) kern phi (fun b => rnat K (charge_of si b))) /\
  (forall phi, rsum (lindblad_energy_current K L phi h tL E) (leads nl) =
     weighted_action K L (ly_ndm0r L) kern phi E) /\
  (forall phi, stationary K (ly_ndm0r L) kern phi ->
     rsum (lindblad_current K L phi tL) (leads nl) = 0 /\ rsum (lindblad_energy_current K L phi h tL E) (leads nl) = 0) /\
  (forall phi mu l, heat_of K (lindblad_current K L phi tL) (lindblad_energy_current K L phi h tL E) mu l =
     lindblad_energy_current K L phi h tL E l - mu l * lindblad_current K L phi tL l).
Proof. exact (gen_lindblad K L LO (charge_of si) CH). Qed.

(** *** C28, C29 *)
Theorem C28_vn1 : forall nl T F E,
  let kern := kern_of K L (vn1_calls K L nl T F E) in
  (forall j, (j < ly_ndm0r L)%nat -> trace_column K L kern j = 0) /\
  (hermitian K T -> forall phi, rsum (vn1_current K L phi T F) (leads nl) =
     weighted_action K L (ly_ndm0r L) kern phi (fun b => rnat K (charge_of si b))) /\
  (hermitian K T -> forall phi, stationary K (ly_ndm0r L) kern phi -> rsum (vn1_current K L phi T F) (leads nl) = 0).
Proof. exact (gen_vn1 K L LO (charge_of si) CH). Qed.
Theorem C29_redfield : forall nl T F E,
  let kern := kern_of K L (red_calls K L nl T F E) in
  (forall j, (j < ly_ndm0r L)%nat -> trace_column K L kern j = 0) /\
  (hermitian K T -> forall phi, rsum (red_current K L phi T F) (leads nl) =
     weighted_action K L (ly_ndm0r L) kern phi (fun b => rnat K (charge_of si b))) /\
  (hermitian K T -> forall phi, stationary K (ly_ndm0r L) kern phi -> rsum (red_current K L phi T F) (leads nl) = 0).
Proof. exact (gen_redfield K L LO (charge_of si) CH). Qed.

(** *** C33 *)
Theorem C33_readout : forall phi,
  (forall b bp c, (0 <= c)%Z -> In b (states L c) -> In bp (states L c) ->
     rho K L phi bp b c = conj (rho K L phi b bp c)) /\
  (forall b c, (0 <= c)%Z -> In b (states L c) -> im (rho K L phi b b c) = 0) /\
  (* the sum of the diagonal elements = norm_vec . phi = get_phi0_norm *)
  rsum (fun c => rsum (fun b => re (rho K L phi b b c)) (states L c)) (charges L) =
    rsum (fun k => norm_vec K L (Z.of_nat k) * phi (Z.of_nat k)) (seq 0 (ly_ndm0r L)) /\
  rsum (fun c => rsum (fun b => re (rho K L phi b b c)) (states L c)) (charges L) = phi0_norm K L phi.
Proof. exact (gen_readout K L LO). Qed.
End Props.
Print Assumptions C23_pauli_columns.
Print Assumptions C24_pauli_currents.
Print Assumptions C27_lindblad.
Print Assumptions C28_vn1.
Print Assumptions C29_redfield.
Print Assumptions C33_readout.

(** ** Examples: two levels, 'charge' indexing, two leads *)
From Coq Require Qcanon.
Definition QRing : CRing := mkCRing Qcanon.Qc (Qcanon.Q2Qc 0) (Qcanon.Q2Qc 1) Qcanon.Qcplus Qcanon.Qcmult Qcanon.Qcminus Qcanon.Qcopp Qcanon.Qcrt.
Definition qz (z : Z) : QRing := Qcanon.Q2Qc (inject_Z z).
Definition qhalf : QRing := Qcanon.Q2Qc (1 # 2).
Example qhalf_ok : radd qhalf qhalf = (r1 : QRing).
Proof. apply Qcanon.Qc_is_canon. reflexivity. Qed.

Definition ex_dm : DMI := snd (call_init KDM 2 "charge").
Definition ex_si : SI := fst (call_init KDM 2 "charge").
Definition ex_L : Lay := lay_of ex_dm.
Example ex_system : system 2 "charge" ex_si ex_L.
Proof. apply sys_plain. apply reach_init. reflexivity. Qed.
Example ex_sizes : (ly_npauli ex_L, ly_ndm0 ex_L, ly_ndm0r ex_L, ly_ndm1 ex_L) = (4, 5, 6, 4) /\
  map (states ex_L) [-1; 0; 1; 2; 3]%Z = [[]; [0]; [1; 2]; [3]; []] /\
  ind0 ex_L 1 2 1 = 4%Z /\ ind0 ex_L 2 1 1 = 4%Z.
Proof. vm_compute. auto. Qed.
(** with the coherence between states 1 and 2 removed, and with it kept *)
Definition ex_E (b : nat) : Q := match b with 1 => 1 | 2 => 3 | _ => 0 end.
Example ex_removed : exists L, remove_coherences (qfar ex_E 1) ex_L = Some L /\ system 2 "charge" ex_si L /\
  ind0 L 1 2 1 = (-1)%Z /\ ly_ndm0 L = 4.
Proof.
  destruct (remove_coherences (qfar ex_E 1) ex_L) as [L|] eqn:E; [|vm_compute in E; discriminate].
  exists L. split; auto. split.
  - eapply sys_removed; [apply reach_init; reflexivity| |apply (Qlt_le_weak 0 1); reflexivity|exact E]. vm_compute. lia.
  - vm_compute in E. injection E as <-. vm_compute. auto.
Qed.

Definition ex_pf (l k : nat) (q : bool) : Z := (Z.of_nat (l + 2 * k) + if q then 1 else 3)%Z.
Definition kern_rows {K : CRing} (s : nat) (m : Z * Z -> K) : list (list K) :=
  map (fun i => map (fun j => m (Z.of_nat i, Z.of_nat j)) (seq 0 s)) (seq 0 s).
Example C23_case : kern_rows 4 (kern_of ZRing ex_L (pauli_calls ZRing ex_L 2 ex_pf)) =
  [[-18; 3; 7; 0]; [7; -18; 0; 11]; [11; 0; -26; 15]; [0; 15; 19; -26]]%Z.
Proof. vm_compute. reflexivity. Qed.
Definition ex_phi (k : Z) : Z := (2 * k + 1)%Z.
Example C24_case :
  map (pauli_current ZRing ex_L ex_phi ex_pf) (leads 2) = [-28; -40]%Z /\
  weighted_action ZRing ex_L 4 (kern_of ZRing ex_L (pauli_calls ZRing ex_L 2 ex_pf)) ex_phi
     (fun b => rnat ZRing (charge_of ex_si b)) = (-68)%Z /\
  map (charge_of ex_si) [0; 1; 2; 3] = [0; 1; 1; 2].
Proof. vm_compute. auto. Qed.

Definition ex_T (l a b : nat) : Cx ZRing :=
  let x := (Z.of_nat (1 + l + a * b + a + b))%Z in
  let y := (Z.of_nat a - Z.of_nat b)%Z in @mkC ZRing x y.
Example ex_T_herm : hermitian ZRing ex_T.
Proof.
  intros l a b. unfold ex_T. apply cplx_eq; cbn [re im conj].
  - change (Z.of_nat (1 + l + a * b + a + b) = Z.of_nat (1 + l + b * a + b + a)). f_equal. lia.
  - change (- (Z.of_nat a - Z.of_nat b) = Z.of_nat b - Z.of_nat a)%Z. lia.
Qed.
Definition ex_F (l k : nat) (q : bool) : Cx ZRing :=
  @mkC ZRing (Z.of_nat (k + l) + if q then 2 else 5)%Z (Z.of_nat (3 * k) - Z.of_nat l)%Z.
Definition ex_EZ (b : nat) : Z := Z.of_nat (b * b).
Example C28_case :
  let kern := kern_of ZRing ex_L (vn1_calls ZRing ex_L 2 ex_T ex_F ex_EZ) in
  map (fun i => kern (Z.of_nat i, 5%Z)) (seq 0 6) = [-54; -3758; 3324; 488; -1100; 2997]%Z /\
  trace_column ZRing ex_L kern 5 = 0%Z /\
  map (vn1_current ZRing ex_L ex_phi ex_T ex_F) (leads 2) = [-63744; -67312]%Z /\
  weighted_action ZRing ex_L 6 kern ex_phi (fun b => rnat ZRing (charge_of ex_si b)) = (-131056)%Z.
Proof. vm_compute. auto. Qed.
Example C29_case :
  let kern := kern_of ZRing ex_L (red_calls ZRing ex_L 2 ex_T ex_F ex_EZ) in
  map (fun i => kern (Z.of_nat i, 5%Z)) (seq 0 6) = [34; -4416; 3026; 1356; -1616; 3429]%Z /\
  map (red_current ZRing ex_L ex_phi ex_T ex_F) (leads 2) = [-59244; -62152]%Z /\
  weighted_action ZRing ex_L 6 kern ex_phi (fun b => rnat ZRing (charge_of ex_si b)) = (-121396)%Z.
Proof. vm_compute. auto. Qed.
Definition ex_tL (l a b : nat) : Cx QRing := @mkC QRing (qz (Z.of_nat (1 + l + 2 * a + b))) (qz (Z.of_nat a - Z.of_nat (b * l))).
Definition ex_phiq (k : Z) : QRing := qz (2 * k + 1).
Example C27_case :
  let kern := kern_of QRing ex_L (lindblad_calls QRing ex_L 2 qhalf ex_tL (fun b => qz (ex_EZ b))) in
  map (fun i => Qcanon.this (kern (Z.of_nat i, 5%Z))) (seq 0 6) = [-4; 16; 16; -28; -3; -196]%Q /\
  map (fun l => Qcanon.this (lindblad_current QRing ex_L ex_phiq ex_tL l)) (leads 2) = [1200; 948]%Q /\
  Qcanon.this (weighted_action QRing ex_L 6 kern ex_phiq (fun b => rnat QRing (charge_of ex_si b))) = 2148%Q.
Proof. vm_compute. auto. Qed.
Example C33_case : rho ZRing ex_L ex_phi 1 2 1 = @mkC ZRing 9%Z 11%Z /\ rho ZRing ex_L ex_phi 2 1 1 = @mkC ZRing 9%Z (-11)%Z /\
  rho ZRing ex_L ex_phi 2 2 1 = @mkC ZRing 5%Z 0%Z /\ phi0_norm ZRing ex_L ex_phi = 16%Z.
Proof. vm_compute. auto. Qed.
