(** Property C71, second part: shifting every level by d shifts the Hamiltonian of N electrons by N d. *)
From Coq Require Import String List Arith Lia Bool ZArith Permutation Ring Reals Lra.
From Verif Require Import Base Bits Indexing IndexingProofs RemoveProofs PropIndexing CRing SpecFunc Fock Operators OperatorsProofs PropOperators
  SpinFock KernelGen Params PropBasisVec Qn DMIndex DMReach PropDMIndex Layout Coherences Kernel
  PropKernel Rates PropRates MasterEq PropMaster PropStationary PropGauge.
Import ListNotations.
Open Scope nat_scope.
Local Notation length := List.length.

Section Ham.
Variable K : CRing.
Notation C := (Cx K).
Add Ring CgaH : (rth C).
Local Open Scope rng_scope.

(** hsingle with d added to every level energy (i, i) *)
Definition lift_levels (d : C) (hs : list ((nat * nat) * C)) : list ((nat * nat) * C) :=
  map (fun e => (fst e, if Nat.eqb (fst (fst e)) (snd (fst e)) then snd e + d else snd e)) hs.
Lemma lift_keys : forall d hs, map fst (lift_levels d hs) = map fst hs.
Proof. intros. unfold lift_levels. rewrite map_map. reflexivity. Qed.

Definition here (s : list bool) (i : nat) : C := if occ_at i s then 1 else 0.
Lemma count_levels : forall s, rsum (here s) (seq 0 (length s)) = rnat C (ones s).
Proof.
  induction s as [|b s IH]; [reflexivity|]. cbn [length seq rsum ones]. rewrite <- seq_shift.
  assert (E : rsum (here (b :: s)) (map S (seq 0 (length s))) = rsum (here s) (seq 0 (length s))).
  { clear. induction (seq 0 (length s)); simpl; [reflexivity|]. f_equal. exact IHl. }
  rewrite E, IH. unfold here, occ_at. cbn [nth]. destruct b; cbn [Nat.add rnat]; ring.
Qed.

Lemma lift_mel : forall n hs herm d sp sq, length sp = n -> NoDup (map fst hs) ->
  (forall i j h, In ((i, j), h) hs -> (i < n /\ j < n)%nat) -> (forall i, (i < n)%nat -> In (i, i) (map fst hs)) ->
  mel C (osum C (hop_op K herm) (lift_levels d hs)) sp sq =
  mel C (osum C (hop_op K herm) hs) sp sq + d * rnat C (ones sp) * basis C sq sp.
Proof.
  intros n hs herm d sp sq Ls ND HK HA. unfold mel. rewrite !osum_app. unfold lift_levels. rewrite rsum_map.
  transitivity (rsum (fun e => hop_op K herm e (basis C sq) sp
      + (if Nat.eqb (fst (fst e)) (snd (fst e)) then here sp (fst (fst e)) else 0) * (d * basis C sq sp)) hs).
  { apply (rsum_ext C). intros [[i j] h] He. cbn [fst snd]. destruct (Nat.eqb_spec i j) as [<-|Hne].
    - unfold hop_op. rewrite Nat.eqb_refl. cbn [negb]. rewrite andb_false_r. unfold oplus, oscale, ocomp, ozero.
      rewrite !number. unfold here. destruct (occ_at i sp); ring.
    - transitivity (hop_op K herm (i, j, h) (basis C sq) sp); [reflexivity|ring]. }
  rewrite rsum_plus. f_equal. rewrite (rsum_mul_r C).
  transitivity (rnat C (ones sp) * (d * basis C sq sp)); [|ring]. f_equal.
  rewrite <- count_levels, Ls.
  transitivity (rsum (fun k => here sp (fst k)) (filter (fun k => Nat.eqb (fst k) (snd k)) (map fst hs))).
  { rewrite rsum_filter, rsum_map. apply (rsum_ext C). intros [[i j] h] _. reflexivity. }
  transitivity (rsum (fun k : nat * nat => here sp (fst k)) (map (fun i => (i, i)) (seq 0 n))).
  - apply (rsum_perm C). apply NoDup_Permutation.
    + now apply NoDup_filter.
    + apply FinFun.Injective_map_NoDup; [|apply seq_NoDup]. intros a b Q. now injection Q.
    + intros [i j]. rewrite filter_In, (in_map_iff (fun i => (i, i)) (seq 0 n)). cbn [fst snd]. split.
      * intros [Hin Q]. apply Nat.eqb_eq in Q. subst j. exists i. split; auto. apply in_seq.
        apply in_map_iff in Hin. destruct Hin as ([[i' j'] h] & Q & Hin). cbn [fst] in Q. injection Q as -> ->. apply HK in Hin. lia.
      * intros (x & Q & Hin). injection Q as Q1 Q2. subst i j. apply in_seq in Hin. split; [apply HA; lia|apply Nat.eqb_refl].
  - rewrite rsum_map. reflexivity.
Qed.

Lemma lift_key : forall d hs (Q : nat -> nat -> Prop), (forall i j h, In ((i, j), h) hs -> Q i j) ->
  forall i j h, In ((i, j), h) (lift_levels d hs) -> Q i j.
Proof.
  intros d hs Q HK i j h Hi. assert (X : In (i, j) (map fst (lift_levels d hs))) by (apply (in_map fst) in Hi; exact Hi).
  rewrite lift_keys in X. apply in_map_iff in X. destruct X as ([[i' j'] h'] & X & Hi'). cbn [fst] in X. injection X as -> ->. eauto.
Qed.
Lemma block_diff : forall n name ops si herm hs c blk (ham_ ham ham' : nat * nat -> C) d, reachable_si n name ops si -> NoDup (map fst hs) ->
  (forall i j h, In ((i, j), h) hs -> (i < n /\ j < n)%nat) -> (forall i, (i < n)%nat -> In (i, i) (map fst hs)) ->
  NoDup blk -> (forall k, In k blk -> (k < si_nmany si)%nat /\ exists s, get_state si k = Some s /\ electrons s = c) ->
  (forall p q sp sq, block_state si blk p sp -> block_state si blk q sq -> ham (p, q) = ham_ (p, q) + mel C (osum C (hop_op K herm) hs) sp sq) ->
  (forall p q sp sq, block_state si blk p sp -> block_state si blk q sq -> ham' (p, q) = ham_ (p, q) + mel C (osum C (hop_op K herm) (lift_levels d hs)) sp sq) ->
  forall p q, (p < length blk)%nat -> (q < length blk)%nat -> ham' (p, q) = ham (p, q) + (if Nat.eqb p q then d * rnat C c else 0).
Proof.
  intros n name ops si herm hs c blk ham_ ham ham' d RS ND HK HA NB Hin H H' p q Hp Hq.
  assert (BS : forall p, (p < length blk)%nat -> exists k s, nth_error blk p = Some k /\ In k blk /\ (k < si_nmany si)%nat /\ get_state si k = Some s /\ electrons s = c).
  { intros x Hx. destruct (nth_error blk x) as [k|] eqn:En; [|apply nth_error_None in En; lia]. pose proof (nth_error_In _ _ En) as Hk.
    destruct (Hin k Hk) as (Lk & s & Es & Ec). exists k, s. auto. }
  destruct (BS p Hp) as (kp & sp & Enp & Hkp & Lp & Esp & Ecp). destruct (BS q Hq) as (kq & sq & Enq & Hkq & Lq & Esq & Ecq).
  assert (Bp : block_state si blk p sp) by (exists kp; auto). assert (Bq : block_state si blk q sq) by (exists kq; auto).
  rewrite (H' p q sp sq Bp Bq), (H p q sp sq Bp Bq).
  pose proof (reachable_correct _ _ _ _ RS) as RC.
  rewrite (lift_mel n) by (auto; apply (gs_len _ _ _ RC kp); auto).
  rewrite ones_electrons, Ecp.
  assert (Q : basis C sq sp = if Nat.eqb p q then 1 else 0).
  { unfold basis. destruct (Nat.eqb_spec p q) as [->|Hne].
    - replace sq with sp by congruence. destruct (list_eq_dec _ sp sp); congruence.
    - destruct (list_eq_dec _ sp sq) as [->|]; [|reflexivity]. exfalso. apply Hne.
      assert (kp = kq) by (apply (gs_inj _ _ _ RC _ _ sq); auto). subst kq.
      apply (proj1 (NoDup_nth_error blk)); [exact NB|exact Hp|congruence]. }
  rewrite Q. destruct (Nat.eqb p q); ring.
Qed.

(** the blocks of qdot.py 791-819: Coulomb terms, then hoppings.  Blocks of charge c ... *)
Theorem C71_block : forall n name ops si herm_hs herm_c m_less_n hs cl c ham_ d, reachable_si n name ops si -> NoDup (map fst hs) ->
  (forall i j h, In ((i, j), h) hs -> (i < n /\ j < n)%nat) -> (forall i, (i < n)%nat -> In (i, i) (map fst hs)) ->
  (forall m k l r U, In ((m, k, l, r), U) cl -> (m < n /\ k < n /\ l < n /\ r < n)%nat) -> (c <= n)%nat ->
  exists blk ham ham', get_lst si c None None = Some blk /\
    ham_block K herm_hs herm_c m_less_n si hs cl (c, None) ham_ = Some ham /\
    ham_block K herm_hs herm_c m_less_n si (lift_levels d hs) cl (c, None) ham_ = Some ham' /\
    forall p q, (p < length blk)%nat -> (q < length blk)%nat -> ham' (p, q) = ham (p, q) + (if Nat.eqb p q then d * rnat C c else 0).
Proof.
  intros n name ops si herm_hs herm_c m_less_n hs cl c ham_ d RS ND HK HA HC Hc.
  destruct (charge_block_closed n name ops si c RS Hc) as (blk0 & E0 & CB & Hin).
  destruct (C15_charge_block K n name ops si herm_c m_less_n cl c ham_ RS HC Hc) as (blk & hc & E & EC & _).
  destruct (C14_charge_block K n name ops si herm_hs hs c hc RS HK Hc) as (blk1 & ham & E1 & EH & H).
  destruct (C14_charge_block K n name ops si herm_hs (lift_levels d hs) c hc RS (lift_key d hs _ HK) Hc) as (blk2 & ham' & E2 & EH' & H').
  rewrite E in E0, E1, E2. injection E0 as <-. injection E1 as <-. injection E2 as <-.
  exists blk, ham, ham'. unfold ham_block. cbn [fst snd]. rewrite E, EC. repeat (split; [assumption || reflexivity|]).
  apply (block_diff n name ops si herm_hs hs c blk hc); auto; [apply CB|]. intros k Hk. now apply Hin.
Qed.
(** ... and of charge c and spin projection z *)
Theorem C71_sz_block : forall n name ops si herm_hs herm_c m_less_n hs cl c z ham_ d, reachable_si n name ops si ->
  (ix_of name n = IxSz \/ ix_of name n = IxSsq) -> NoDup (map fst hs) ->
  (forall i j h, In ((i, j), h) hs -> (i < n /\ j < n)%nat /\ spin_of n i = spin_of n j) -> (forall i, (i < n)%nat -> In (i, i) (map fst hs)) ->
  (forall m k l r U, In ((m, k, l, r), U) cl -> (m < n /\ k < n /\ l < n /\ r < n)%nat /\ (spin_of n m + spin_of n k = spin_of n l + spin_of n r)%Z) ->
  (c <= n)%nat -> In z (szrange c n) ->
  exists blk ham ham', get_lst si c (Some z) None = Some blk /\
    ham_block K herm_hs herm_c m_less_n si hs cl (c, Some z) ham_ = Some ham /\
    ham_block K herm_hs herm_c m_less_n si (lift_levels d hs) cl (c, Some z) ham_ = Some ham' /\
    forall p q, (p < length blk)%nat -> (q < length blk)%nat -> ham' (p, q) = ham (p, q) + (if Nat.eqb p q then d * rnat C c else 0).
Proof.
  intros n name ops si herm_hs herm_c m_less_n hs cl c z ham_ d RS Hix ND HK HA HC Hc Hz.
  destruct (sz_block_closed n name ops si c z RS Hix Hc Hz) as (blk0 & E0 & CB & Hin).
  destruct (C15_sz_block K n name ops si herm_c m_less_n cl c z ham_ RS Hix HC Hc Hz) as (blk & hc & E & EC & _).
  destruct (C14_sz_block K n name ops si herm_hs hs c z hc RS Hix HK Hc Hz) as (blk1 & ham & E1 & EH & H).
  destruct (C14_sz_block K n name ops si herm_hs (lift_levels d hs) c z hc RS Hix
    (lift_key d hs (fun i j => (i < n /\ j < n)%nat /\ spin_of n i = spin_of n j) HK) Hc Hz) as (blk2 & ham' & E2 & EH' & H').
  rewrite E in E0, E1, E2. injection E0 as <-. injection E1 as <-. injection E2 as <-.
  exists blk, ham, ham'. unfold ham_block. cbn [fst snd]. rewrite E, EC. repeat (split; [assumption || reflexivity|]).
  apply (block_diff n name ops si herm_hs hs c blk hc); auto; [|apply CB|].
  - intros i j h Hi. apply (HK i j h Hi).
  - intros k Hk. destruct (proj1 (Hin k) Hk) as (Lk & s & Es & Ec & _). split; auto. exists s. auto.
Qed.
End Ham.
Print Assumptions C71_block.
Print Assumptions C71_sz_block.

Local Notation Cr := (Cx RRing).
Add Ring CgaR : (rth Cr).
(** eigenvectors stay, the energy of N electrons is shifted by N d *)
Theorem C71_eigen : forall m (H H' P : nat -> nat -> Cr) E (x : R),
  (forall p q, (p < m)%nat -> (q < m)%nat -> H' p q = radd (H p q) (if Nat.eqb p q then @ofR RRing x else 0%rng)) ->
  (eigen m H P E <-> eigen m H' P (fun j => E j + x)%R).
Proof.
  intros m H H' P E x HH.
  assert (S : forall i j, (i < m)%nat -> rsum (fun k => H' i k * P k j)%rng (seq 0 m) = (rsum (fun k => H i k * P k j) (seq 0 m) + @ofR RRing x * P i j)%rng).
  { intros i j Hi. transitivity (rsum (fun k => H i k * P k j + (if Nat.eqb i k then @ofR RRing x * P k j else 0))%rng (seq 0 m)).
    - apply (rsum_ext Cr). intros k Hk. apply in_seq in Hk. rewrite HH by lia. destruct (Nat.eqb i k); ring.
    - rewrite (rsum_plus Cr). f_equal. rewrite (rsum_single Cr _ _ (seq 0 m) i).
      + now rewrite Nat.eqb_refl.
      + apply seq_NoDup.
      + apply in_seq. lia.
      + intros y _ Hne. destruct (Nat.eqb_spec i y); congruence. }
  assert (A : forall a b : R, @ofR RRing (a + b)%R = radd (@ofR RRing a) (@ofR RRing b)).
  { intros a b. apply cplx_eq; rewrite ?re_add, ?im_add; cbn; [reflexivity|ring]. }
  split; intros EG i j Hi Hj; specialize (EG i j Hi Hj); rewrite ?S in * by auto; rewrite ?A in *.
  - rewrite EG. ring.
  - transitivity ((rsum (fun k => H i k * P k j) (seq 0 m) + @ofR RRing x * P i j) - @ofR RRing x * P i j)%rng; [ring|].
    rewrite EG. ring.
Qed.
Print Assumptions C71_eigen.

(** *** Examples *)
(** two levels 3 and 7 with hopping 2+i and interaction 10: the block of one electron moves by 100 *)
Definition gx_hs (x : Z) : list ((nat * nat) * Cx ZRing) := [((0, 0), ZC (3 + x) 0); ((1, 1), ZC (7 + x) 0); ((0, 1), ZC 2 1)].
Example C71_block_case : exists m m',
    ham_block ZRing true true true (si_init 2 "charge") (gx_hs 0) [((0, 1, 1, 0), ZC 10 0)] (1, None) zeros = Some m /\
    ham_block ZRing true true true (si_init 2 "charge") (lift_levels ZRing (ZC 100 0) (gx_hs 0)) [((0, 1, 1, 0), ZC 10 0)] (1, None) zeros = Some m' /\
    lift_levels ZRing (ZC 100 0) (gx_hs 0) = gx_hs 100 /\
    m (0, 0) = ZC 7 0 /\ m (1, 1) = ZC 3 0 /\ m (0, 1) = ZC 2 1 /\ m' (0, 0) = ZC 107 0 /\ m' (1, 1) = ZC 103 0 /\ m' (0, 1) = ZC 2 1.
Proof. eexists. eexists. split; [vm_compute; reflexivity|]. split; [vm_compute; reflexivity|]. vm_compute. auto 10. Qed.
Local Open Scope R_scope.
(** the double dot of C69_case moved by 5: the same occupations, currents and heat currents *)
Example C71_case : exists x,
  let E' := shifted_E ex_si ry_E 5 in let mu' := fun l => sx_mu l + 5 in
  let pf := pauli_fct ex_L 2 ry_T ry_E sx_mu sx_tl (fun _ => -100) (fun _ => 100) 0 in
  let pf' := pauli_fct ex_L 2 ry_T E' mu' sx_tl (fun _ => -95) (fun _ => 105) 0 in
  E' 0%nat = 0 /\ E' 1%nat = 6 /\ E' 2%nat = 8 /\ E' 3%nat = 16 /\
  solution ex_L (kern_of RRing ex_L (pauli_calls RRing ex_L 2 pf)) 0 x /\ solution ex_L (kern_of RRing ex_L (pauli_calls RRing ex_L 2 pf')) 0 x /\
  0 < x 0%Z < 1 /\ forall l, pauli_current RRing ex_L x pf' l = pauli_current RRing ex_L x pf l /\
    heat_of RRing (pauli_current RRing ex_L x pf') (pauli_energy_current RRing ex_L x pf' E') mu' l =
    heat_of RRing (pauli_current RRing ex_L x pf) (pauli_energy_current RRing ex_L x pf ry_E) sx_mu l.
Proof.
  destruct C69_case as (_ & x & SX & P & _). exists x. intros E' mu' pf pf'.
  assert (Hix : ix_of "charge" 2 <> IxSsq) by discriminate. assert (H2 : (1 <= 2)%nat) by lia.
  assert (Q : forall a : R, (fun _ : nat => a + 5) = shifted_dm (fun _ => a) 0 5) by reflexivity.
  assert (Em : (fun _ : nat => -95) = shifted_dm (fun _ => -100) 0 5) by (rewrite <- Q; f_equal; apply FunctionalExtensionality.functional_extensionality; intros _; lra).
  assert (Ep : (fun _ : nat => 105) = shifted_dp (fun _ => 100) 0 5) by (change (shifted_dp (fun _ => 100) 0 5) with (fun _ : nat => 100 + 5); apply FunctionalExtensionality.functional_extensionality; intros _; lra).
  destruct (C71_kernels 2 "charge" ex_si ex_L H2 Hix ex_system 2 ry_T ry_E sx_mu sx_tl (fun _ => -100) (fun _ => 100) 0 (fun _ _ _ => 0) (fun _ => 0) 5 (1/2)) as (KS & _).
  rewrite <- Em, <- Ep in KS. change (pauli_calls RRing ex_L 2 pf' = pauli_calls RRing ex_L 2 pf) in KS.
  pose proof (C71_currents 2 "charge" ex_si ex_L H2 Hix ex_system 2 ry_T ry_E sx_mu sx_tl (fun _ => -100) (fun _ => 100) 0 (fun _ _ _ => 0) (fun _ => 0) 5 x (1/2) ltac:(lra)) as CU.
  rewrite <- Em, <- Ep in CU.
  assert (EV : E' 0%nat = 0 /\ E' 1%nat = 6 /\ E' 2%nat = 8 /\ E' 3%nat = 16).
  { unfold E', shifted_E. replace (charge_of ex_si 0) with 0%nat by reflexivity. replace (charge_of ex_si 1) with 1%nat by reflexivity.
    replace (charge_of ex_si 2) with 1%nat by reflexivity. replace (charge_of ex_si 3) with 2%nat by reflexivity. simpl. lra. }
  destruct EV as (E0 & E1 & E2 & E3). split; [exact E0|]. split; [exact E1|]. split; [exact E2|]. split; [exact E3|].
  split; [exact SX|]. split; [rewrite KS; exact SX|]. split; [exact P|].
  intros l. destruct (CU l) as (A & _). unfold out, moved in A. injection A as A1 A2 A3. split; [exact A1|exact A3].
Qed.

(** A band that stays where it is (band edges not moved, integrals with a finite band) does not allow the shift. *)
Theorem C71_fixed_band_refuted :
  let pf d := pauli_fct ex_L 2 ry_T (shifted_E ex_si ry_E d) (fun l => sx_mu l + d) sx_tl (fun _ => -100) (fun _ => 100) 0 in
  0 < pf 0 1%nat (ind1 ex_L 1 0 0) true /\ pf 1000 1%nat (ind1 ex_L 1 0 0) true = 0.
Proof.
  assert (H2 : (1 <= 2)%nat) by lia. intros pf. unfold pf.
  rewrite !(pauli_fct_val ex_L (system_layout 2 "charge" ex_si ex_L H2 ltac:(discriminate) ex_system)) by (try lia; vm_compute; auto).
  assert (EV : forall d, shifted_E ex_si ry_E d 1%nat - shifted_E ex_si ry_E d 0%nat = 1 + d).
  { intros d. unfold shifted_E. replace (charge_of ex_si 0) with 0%nat by reflexivity. replace (charge_of ex_si 1) with 1%nat by reflexivity. simpl. lra. }
  rewrite !EV. unfold fpauli, func_pauli. cbn [Nat.eqb orb]. split.
  - replace (within _ _ _) with true.
    + cbn [snd]. apply Rmult_lt_0_compat.
      * cbn [ry_T Nat.eqb]. rewrite re_mul. unfold ry_T. cbn [Nat.eqb re im]. rsimp. simpl. lra.
      * pose proof PI_RGT_0. assert (F : fermi_func ((1 + 0 - (sx_mu 1 + 0)) / sx_tl 1) < 1).
        { rewrite fermi_below by (simpl; unfold cut; lra). apply fermi_range. }
        nra.
    + symmetry. apply within_true. simpl. lra.
  - replace (within _ _ _) with false; [cbn [snd]; ring|]. symmetry. destruct (within _ _ _) eqn:W; [|reflexivity]. apply within_true in W. simpl in W. lra.
Qed.
Print Assumptions C71_fixed_band_refuted.
