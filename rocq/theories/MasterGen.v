(** The assembled kernels as master equations and the currents as rates of change, for any well-formed layout
    whose lists hold the states by their number of electrons [N] (see KernelGen.v). *)
From Coq Require Import String List Arith Lia ZArith Bool Permutation Ring QArith.
From Verif Require Import Base Bits Indexing IndexingProofs RemoveProofs Binom SsqProofs Qn
  PropIndexing DMIndex DMIndexProofs DMReach PropDMIndex CRing Layout Coherences Kernel KernelProofs
  PauliProofs CohProofs CohKernels CohCurrents KernelGen MasterEq.
Import ListNotations.
Open Scope nat_scope.
Local Notation length := List.length.

(** ** Specification of the rate equation *)
Section Rates.
Variable K : CRing.
Local Open Scope rng_scope.
Variables (S_ : list nat) (N : nat -> nat) (up dn : nat -> nat -> nat -> K).
(** rate of the transition t -> s at lead l; up l c b is the rate of b -> c (electron enters), dn l c b of c -> b *)
Definition rate (l s t : nat) : K :=
  if (N s =? S (N t))%nat then up l s t else if (N t =? S (N s))%nat then dn l t s else 0.
Definition rate_lead (p : nat -> K) (l s : nat) : K :=
  rsum (fun t => rate l s t * p t - rate l t s * p s) S_.
End Rates.

Section Gen.
Variable K : CRing.
Local Notation C := (Cx K).
Local Open Scope rng_scope.
Add Ring KrPM : (rth K).
Add Ring CrPM : (rth (Cx K)).
Variable L : Lay.
Hypothesis LO : layout L.
Variable N : nat -> nat.
Hypothesis CH : forall c b, (0 <= c)%Z -> In b (states L c) -> N b = Z.to_nat c.
(** all considered states *)
Local Notation SS := (cons_states L).
Local Notation dens := (dens K L N).
Local Notation tab F q := (tab K L N F q).
Local Notation act := (act K).

(** *** C46 *)
Lemma gen46_pauli : forall nl pf phi b c, (0 <= c)%Z -> In b (states L c) ->
  act (ly_npauli L) (kern_of K L (pauli_calls K L nl pf)) phi (ind0 L b b c) =
  rsum (fun l => rate_lead K SS N (fun l s t => pf l (ind1 L s t (Z.of_nat (N t))) false)
                                  (fun l s t => pf l (ind1 L s t (Z.of_nat (N t))) true)
                           (fun s => re (dens phi s s)) l b) (leads nl).
Proof.
  intros nl pf phi b c Hc Hb. rewrite (pauli_row K L LO) by auto. unfold gain.
  assert (D : forall s, In s SS -> re (dens phi s s) = phi (ind0 L s s (Z.of_nat (N s)))).
  { intros s Hs. apply (cons_block_of L N CH) in Hs. rewrite (dens_at K L N CH phi s s (Z.of_nat (N s))) by (auto; lia).
    now rewrite (rho_diag_real K L LO) by (auto; lia). }
  assert (B : forall z (f : nat -> K), (-1 <= z <= Z.of_nat (ly_ncharge L))%Z ->
     rsum (fun u => if (Z.of_nat (N u) =? z)%Z then f u else 0) SS = rsum f (states L z)).
  { intros z f Hz. pose proof (f_equal (@re K) (blk K L LO N CH z (fun u => ofR (f u)) Hz)) as X.
    rewrite !(rsum_re K) in X. cbn [re ofR] in X. refine (eq_trans _ X). apply rsum_ext. intros u _. destruct (_ =? _)%Z; reflexivity. }
  pose proof (lo_range L LO c b Hc Hb) as R. pose proof (CH c b Hc Hb) as Nb.
  rewrite (rsum_swap K _ _ (fun a l => pauli_flow K L phi pf l b a (c - 1))), (rsum_swap K _ _ (fun a l => pauli_flow K L phi pf l a b c)).
  rewrite <- rsum_minus. apply rsum_ext. intros l _. rewrite <- !B by lia. rewrite <- rsum_minus. unfold rate_lead. apply rsum_ext. intros u Hu.
  rewrite (D u Hu), (D b (cons_in L LO c b Hc Hb)). unfold rate. rewrite Nb.
  assert (Z.of_nat (Z.to_nat c) = c) as -> by lia. unfold pauli_flow.
  destruct (Nat.eqb_spec (Z.to_nat c) (S (N u))), (Z.eqb_spec (Z.of_nat (N u)) (c - 1)); try lia.
  - destruct (Nat.eqb_spec (N u) (S (Z.to_nat c))), (Z.eqb_spec (Z.of_nat (N u)) (c + 1)); try lia.
    replace (Z.of_nat (N u)) with (c - 1)%Z by lia. replace (c - 1 + 1)%Z with c by lia. ring.
  - destruct (Nat.eqb_spec (N u) (S (Z.to_nat c))), (Z.eqb_spec (Z.of_nat (N u)) (c + 1)); try lia.
    + replace (Z.of_nat (N u)) with (c + 1)%Z by lia. ring.
    + ring.
Qed.

Lemma gen_lin_herm : forall h tL phi l, herm_on K L (lindblad_lead K SS N h tL (dens phi) l).
Proof.
  intros h tL phi l s t Hs Ht. unfold lindblad_lead, op_add. rewrite conj_add.
  now rewrite !(diss_herm K L LO N CH phi) by auto.
Qed.

Lemma gen46_lindblad : forall nl (h : K) tL E phi b bp c, h + h = 1 -> el L b bp c ->
  rho K L (act (ly_ndm0r L) (kern_of K L (lindblad_calls K L nl h tL E)) phi) b bp c =
  master K SS E nl (lindblad_lead K SS N h tL) (dens phi) b bp.
Proof.
  intros nl h tL E phi b bp c Hh EL. unfold lindblad_calls.
  apply (kernel_is_master K L LO N CH phi nl E _ h (lindblad_lead K SS N h tL) Hh); auto.
  - apply lindblad_ok; auto.
  - intros b' bp' c' (Hc & Hb & Hbp & _). apply lin_elem; auto.
  - intros l. apply gen_lin_herm.
Qed.

Lemma gen46_vn1 : forall nl (h : K) T F E phi b bp c, h + h = 1 -> hermitian K T -> el L b bp c ->
  rho K L (act (ly_ndm0r L) (kern_of K L (vn1_calls K L nl T F E)) phi) b bp c =
  master K SS E nl (vn1_lead K SS N T (tab F false) (tab F true)) (dens phi) b bp.
Proof.
  intros nl h T F E phi b bp c Hh HT EL. unfold vn1_calls.
  apply (kernel_is_master K L LO N CH phi nl E _ h (vn1_lead K SS N T (tab F false) (tab F true)) Hh); auto.
  - apply vn1_ok; auto.
  - intros b' bp' c' (Hc & Hb & Hbp & _). rewrite (vn1_elem K L LO N CH phi b' bp' c' Hc Hb Hbp nl T F HT).
    rewrite <- rsum_mul_l. apply rsum_ext. intros l _. unfold vn1_lead. symmetry. apply (i_mi K).
  - intros l s t Hs Ht. unfold vn1_lead. apply (comm_herm K L); auto.
    + intros s' t' _ _. apply HT.
    + apply sym_herm.
Qed.

Lemma gen46_redfield : forall nl (h : K) T F E phi b bp c, h + h = 1 -> hermitian K T -> el L b bp c ->
  rho K L (act (ly_ndm0r L) (kern_of K L (red_calls K L nl T F E)) phi) b bp c =
  master K SS E nl (red_lead K SS N T (tab F false) (tab F true)) (dens phi) b bp.
Proof.
  intros nl h T F E phi b bp c Hh HT EL. unfold red_calls.
  apply (kernel_is_master K L LO N CH phi nl E _ h (red_lead K SS N T (tab F false) (tab F true)) Hh); auto.
  - apply red_ok; auto.
  - intros b' bp' c' (Hc & Hb & Hbp & _). rewrite (red_elem K L LO N CH phi b' bp' c' Hc Hb Hbp nl T F HT).
    rewrite <- rsum_mul_l. apply rsum_ext. intros l _. unfold red_lead. symmetry. apply (i_mi K).
  - intros l s t Hs Ht. unfold red_lead. apply (comm_herm K L); auto.
    + intros s' t' _ _. apply HT.
    + intros s' t' Hs' Ht'. apply (Y_herm K L LO N CH phi T F l); auto.
Qed.

(** *** C47 *)
(** the same system with every lead but l disconnected *)
Definition only (l : nat) (T : nat -> Op K) : nat -> Op K := fun l' => if (l' =? l)%nat then T l' else fun _ _ => 0.

Lemma leads_last : forall (f : nat -> K) l, (forall l', (l' < l)%nat -> f l' = 0) -> rsum f (leads (S l)) = f l.
Proof.
  intros f l H. unfold leads. rewrite seq_S, rsum_app. cbn [rsum Nat.add]. rewrite (rsum_0 K); [ring|].
  intros x Hx. apply in_seq in Hx. apply H. lia.
Qed.
Lemma leads_lastC : forall (f : nat -> C) l, (forall l', (l' < l)%nat -> f l' = 0) -> rsum f (leads (S l)) = f l.
Proof.
  intros f l H. unfold leads. rewrite seq_S, rsum_app. cbn [rsum Nat.add]. rewrite (rsum_0 C); [ring|].
  intros x Hx. apply in_seq in Hx. apply H. lia.
Qed.

(** weighted sum of the diagonal rows of a kernel that is a master equation *)
Lemma weighted_master : forall nl (kern : Z * Z -> K) E lead phi w,
  (forall b bp c, el L b bp c -> rho K L (act (ly_ndm0r L) kern phi) b bp c = master K SS E nl lead (dens phi) b bp) ->
  weighted_action K L (ly_ndm0r L) kern phi w =
  rsum (fun s => w s * re (rsum (fun l => lead (dens phi) l s s) (leads nl))) SS.
Proof.
  intros nl kern E lead phi w H. unfold weighted_action, cons_states. rewrite rsum_flat_map. apply rsum_ext.
  intros c Hc. apply charges_in in Hc. apply rsum_ext. intros b Hb. f_equal.
  pose proof (rho_diag_real K L LO (act (ly_ndm0r L) kern phi) b c ltac:(lia) Hb) as D.
  apply (f_equal (@re K)) in D. cbn [re ofR] in D. rewrite <- D. rewrite H.
  - unfold master. rewrite (comm_energy K L LO N CH phi E b b c) by (auto; lia).
    rewrite re_add, re_mul. replace (E b - E b) with (0 : K) by ring.
    assert (Z0 : ofR 0 * rho K L phi b b c = (0 : C)) by (change (ofR (0 : K)) with (0 : C); ring).
    rewrite Z0. change (re (0 : C)) with (0 : K). change (im (0 : C)) with (0 : K). ring.
  - destruct (lo_diag L LO b c ltac:(lia) Hb) as (B & _). repeat split; auto; lia.
Qed.

Lemma gen47_pauli : forall pf phi E l,
  let dp := rate_lead K SS N (fun l s t => pf l (ind1 L s t (Z.of_nat (N t))) false)
                             (fun l s t => pf l (ind1 L s t (Z.of_nat (N t))) true)
                      (fun s => re (dens phi s s)) l in
  pauli_current K L phi pf l = rsum (fun s => rnat K (N s) * dp s) SS /\
  pauli_energy_current K L phi pf E l = rsum (fun s => E s * dp s) SS.
Proof.
  intros pf phi E l dp.
  set (pf' := fun l' k q => if (l' =? l)%nat then pf l' k q else 0).
  assert (W : forall w, weighted_action K L (ly_npauli L) (kern_of K L (pauli_calls K L (S l) pf')) phi w =
                        rsum (fun s => w s * dp s) SS).
  { intros w. unfold weighted_action. unfold cons_states at 1. rewrite rsum_flat_map. apply rsum_ext.
    intros c Hc. apply charges_in in Hc. apply rsum_ext. intros b Hb. f_equal.
    rewrite gen46_pauli by (auto; lia). rewrite leads_last.
    - unfold dp, rate_lead, rate, pf'. rewrite Nat.eqb_refl. reflexivity.
    - intros l' Hl. unfold rate_lead, rate, pf'. apply (rsum_0 K). intros t _.
      assert ((l' =? l)%nat = false) as -> by (apply Nat.eqb_neq; lia).
      repeat destruct (_ =? _)%nat; ring. }
  destruct (gen_pauli_currents K L LO N CH (S l) pf' phi E) as (A & B & _).
  assert (Z1 : forall l' c b bc, (l' < l)%nat -> pauli_flow K L phi pf' l' c b bc = 0).
  { intros l' c b bc Hl. unfold pauli_flow, pf'. assert ((l' =? l)%nat = false) as -> by (apply Nat.eqb_neq; lia). ring. }
  assert (Z2 : forall c b bc, pauli_flow K L phi pf' l c b bc = pauli_flow K L phi pf l c b bc).
  { intros c b bc. unfold pauli_flow, pf'. now rewrite Nat.eqb_refl. }
  rewrite leads_last in A, B.
  - rewrite <- !W. rewrite <- A, <- B. unfold pauli_current, pauli_energy_current.
    split; apply rsum_ext; intros q _; apply rsum_ext; intros c _; apply rsum_ext; intros b _; now rewrite Z2.
  - intros l' Hl. unfold pauli_energy_current. apply (rsum_0 K). intros q _. apply (rsum_0 K). intros c _.
    apply (rsum_0 K). intros b _. rewrite Z1 by auto. ring.
  - intros l' Hl. unfold pauli_current. apply (rsum_0 K). intros q _. apply (rsum_0 K). intros c _.
    apply (rsum_0 K). intros b _. now apply Z1.
Qed.

Lemma op_mul_0l : forall X s t, op_mul K SS (fun _ _ => 0) X s t = 0.
Proof. intros. unfold op_mul. apply (rsum_0 C). intros. ring. Qed.
Lemma op_mul_0r : forall X s t, op_mul K SS X (fun _ _ => 0) s t = 0.
Proof. intros. unfold op_mul. apply (rsum_0 C). intros. ring. Qed.

Lemma gen47_vn1 : forall (h : K) T F phi l, h + h = 1 -> hermitian K T ->
  vn1_current K L phi T F l =
  rsum (fun s => rnat K (N s) * re (vn1_lead K SS N T (tab F false) (tab F true) (dens phi) l s s)) SS.
Proof.
  intros h T F phi l Hh HT.
  assert (HT' : hermitian K (only l T)).
  { intros l' a b. unfold only. destruct (l' =? l)%nat; [apply HT|apply conj_0]. }
  destruct (gen_vn1 K L LO N CH (S l) (only l T) F (fun _ => 0)) as (_ & A & _).
  specialize (A HT' phi). rewrite leads_last in A.
  - transitivity (vn1_current K L phi (only l T) F l).
    { unfold vn1_current, vn1_amp, only. now rewrite Nat.eqb_refl. }
    rewrite A, (weighted_master (S l) _ (fun _ => 0) (vn1_lead K SS N (only l T) (tab F false) (tab F true))).
    + apply rsum_ext. intros s _. rewrite leads_lastC.
      * unfold vn1_lead, vn1_phi, only. now rewrite Nat.eqb_refl.
      * intros l' Hl. unfold vn1_lead, op_comm, only.
        assert ((l' =? l)%nat = false) as -> by (apply Nat.eqb_neq; lia). rewrite op_mul_0l, op_mul_0r. ring.
    + intros b bp c EL. apply (gen46_vn1 (S l) h (only l T) F (fun _ => 0) phi b bp c Hh HT' EL).
  - intros l' Hl. unfold vn1_current. apply (rsum_0 K). intros q _. apply (rsum_0 K). intros [c b] _.
    unfold m2im, vn1_amp, only. assert ((l' =? l)%nat = false) as -> by (apply Nat.eqb_neq; lia).
    rewrite !(rsum_0 C). { rewrite im_add. change (im (0 : C)) with (0 : K). ring. }
    all: intros x _; destruct (is_included _ _ _ _); ring.
Qed.

Lemma gen47_redfield : forall (h : K) T F phi l, h + h = 1 -> hermitian K T ->
  red_current K L phi T F l =
  rsum (fun s => rnat K (N s) * re (red_lead K SS N T (tab F false) (tab F true) (dens phi) l s s)) SS.
Proof.
  intros h T F phi l Hh HT.
  assert (HT' : hermitian K (only l T)).
  { intros l' a b. unfold only. destruct (l' =? l)%nat; [apply HT|apply conj_0]. }
  destruct (gen_redfield K L LO N CH (S l) (only l T) F (fun _ => 0)) as (_ & A & _).
  specialize (A HT' phi). rewrite leads_last in A.
  - transitivity (red_current K L phi (only l T) F l).
    { unfold red_current, red_amp, only. now rewrite Nat.eqb_refl. }
    rewrite A, (weighted_master (S l) _ (fun _ => 0) (red_lead K SS N (only l T) (tab F false) (tab F true))).
    + apply rsum_ext. intros s _. rewrite leads_lastC.
      * unfold red_lead, red_D, only. now rewrite Nat.eqb_refl.
      * intros l' Hl. unfold red_lead, op_comm, only.
        assert ((l' =? l)%nat = false) as -> by (apply Nat.eqb_neq; lia). rewrite op_mul_0l, op_mul_0r. ring.
    + intros b bp c EL. apply (gen46_redfield (S l) h (only l T) F (fun _ => 0) phi b bp c Hh HT' EL).
  - intros l' Hl. unfold red_current. apply (rsum_0 K). intros q _. apply (rsum_0 K). intros [c b] _.
    unfold m2im, red_amp, only. assert ((l' =? l)%nat = false) as -> by (apply Nat.eqb_neq; lia).
    rewrite !(rsum_0 C). { rewrite im_add. change (im (0 : C)) with (0 : K). ring. }
    all: intros x _; destruct (is_included _ _ _ _); ring.
Qed.

Lemma diss_0 : forall h A r s t, (forall a b, A a b = 0) -> dissipator K SS h A r s t = 0.
Proof.
  intros h A r s t H. unfold dissipator, op_mul, op_adj.
  rewrite (rsum_0 C), (rsum_0 C), (rsum_0 C); [ring| | |].
  all: intros u _; try (rewrite (rsum_0 C); [ring|]; intros v _); rewrite !H, ?conj_0; ring.
Qed.

Lemma gen47_lindblad : forall (h : K) tL E phi l, h + h = 1 ->
  let dr := lindblad_lead K SS N h tL (dens phi) l in
  lindblad_current K L phi tL l = rsum (fun s => rnat K (N s) * re (dr s s)) SS /\
  lindblad_energy_current K L phi h tL E l = rsum (fun s => E s * re (dr s s)) SS.
Proof.
  intros h tL E phi l Hh dr.
  assert (W : forall w E', weighted_action K L (ly_ndm0r L) (kern_of K L (lindblad_calls K L (S l) h (only l tL) E')) phi w =
                        rsum (fun s => w s * re (dr s s)) SS).
  { intros w E'. rewrite (weighted_master (S l) _ E' (lindblad_lead K SS N h (only l tL))).
    - apply rsum_ext. intros s _. rewrite leads_lastC.
      + unfold dr, lindblad_lead, dissipator, op_up, op_dn, only. now rewrite Nat.eqb_refl.
      + intros l' Hl. unfold lindblad_lead, op_add.
        rewrite !(diss_0 h); [ring| |].
        all: intros a b; unfold op_up, op_dn, only; assert ((l' =? l)%nat = false) as -> by (apply Nat.eqb_neq; lia);
          destruct (_ =? _)%nat; reflexivity.
    - intros b bp c EL. apply (gen46_lindblad (S l) h (only l tL) E' phi b bp c Hh EL). }
  destruct (gen_lindblad K L LO N CH (S l) h (only l tL) E Hh) as (_ & A & B & _).
  specialize (A phi). specialize (B phi). rewrite W in A, B. rewrite <- A, <- B. clear A B.
  rewrite !leads_last.
  - unfold lindblad_current, lindblad_energy_current, only. rewrite Nat.eqb_refl. auto.
  - intros l' Hl. unfold lindblad_energy_current. apply (rsum_0 K). intros q _. apply (rsum_0 K). intros [b bp] _.
    destruct (is_included _ _ _ _); auto. unfold only. assert ((l' =? l)%nat = false) as -> by (apply Nat.eqb_neq; lia).
    rewrite !(rsum_0 C); [rewrite re_add; change (re (0 : C)) with (0 : K); ring| |]; intros; ring.
  - intros l' Hl. unfold lindblad_current. apply (rsum_0 K). intros q _. apply (rsum_0 K). intros [b bp] _.
    destruct (is_included _ _ _ _); auto. unfold only. assert ((l' =? l)%nat = false) as -> by (apply Nat.eqb_neq; lia).
    rewrite !(rsum_0 C); [rewrite re_add; change (re (0 : C)) with (0 : K); ring| |]; intros; ring.
Qed.
End Gen.
