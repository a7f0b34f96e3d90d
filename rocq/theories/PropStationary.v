(** Property C69: the stationary state of the Pauli approach is a probability distribution. *)
From Coq Require Import String List Arith Lia ZArith Bool Permutation Ring Reals Lra.
From Verif Require Import Base Bits Indexing DMIndex DMIndexProofs DMReach PropDMIndex CRing SpecFunc Layout Coherences Kernel KernelProofs
  PauliProofs CohProofs CohKernels CohCurrents PropKernel MatrixFree PropSolve MasterEq PropMaster KernelGen ElPh PropElPh Rates PropRates PropPhonon Markov.
Import ListNotations.
Open Scope nat_scope.
Local Notation length := List.length.
Local Notation Cr := (Cx RRing).

(** ** Specification *)
(** x solves the linear system of aprclass.py solve_kern 398-441: row r replaced by the normalisation condition *)
Definition solution (L : Lay) (kern : Z * Z -> R) (r : Z) (x : Z -> R) : Prop :=
  solves RRing (ly_npauli L) (ly_npauli L) (replace_row RRing kern r (norm_vec RRing L)) (set_entry RRing zeros r (1 : RRing)%R) x.
Definition unique_solution (L : Lay) (kern : Z * Z -> R) (r : Z) : Prop :=
  forall x y, solution L kern r x -> solution L kern r y -> forall i, i < ly_npauli L -> x (Z.of_nat i) = y (Z.of_nat i).
(** the occupation of a state *)
Definition occupation (L : Lay) (x : Z -> R) (b : nat) (c : Z) : R := re (rho RRing L (x : Z -> RRing) b b c).

(** ** Any kernel with rates and vanishing trace columns *)
Section Generic.
Variables (n : nat) (name : string) (si : SI) (L : Lay).
Hypotheses (Hn : 1 <= n) (Hix : ix_of name n <> IxSsq) (SY : system n name si L).
Let LO : layout L := system_layout n name si L Hn Hix SY.
Variable kern : Z * Z -> RRing.
Hypotheses (SG : forall i j, i < ly_npauli L -> j < ly_npauli L -> i <> j -> (0 <= kern (Z.of_nat i, Z.of_nat j))%R)
  (TC : forall j, j < ly_npauli L -> trace_column RRing L kern j = r0).
Variable r : Z.
Hypothesis Hr : (0 <= r < Z.of_nat (ly_npauli L))%Z.
Definition entries (i j : nat) : R := kern (Z.of_nat i, Z.of_nat j).
Lemma entries_rates : rate_matrix (ly_npauli L) entries.
Proof. split; [exact SG|exact TC]. Qed.
Lemma occ_val : forall x b c, (0 <= c)%Z -> In b (states L c) -> occupation L x b c = x (ind0 L b b c).
Proof. intros x b c Hc Hb. unfold occupation. now rewrite (rho_diag_real RRing L LO) by auto. Qed.
Lemma solution_steady : forall x, solution L kern r x <-> steady (ly_npauli L) entries (fun i => x (Z.of_nat i)) /\ sumR (ly_npauli L) (fun i => x (Z.of_nat i)) = 1%R.
Proof.
  intros x. unfold solution. rewrite (C31_row_replacement RRing n name si L Hn Hix SY (ly_npauli L) kern r (le_n _) Hr TC x).
  rewrite (trace_norm RRing n name si L Hn Hix SY). unfold phi0_norm. rewrite (diag_sum RRing L LO x). reflexivity.
Qed.
Definition to_vec (p : nat -> R) : Z -> R := fun k => p (Z.to_nat k).
Lemma to_vec_of : forall p, (forall i, to_vec p (Z.of_nat i) = p i).
Proof. intros p i. unfold to_vec. now rewrite Nat2Z.id. Qed.
Lemma to_vec_solution : forall p, steady (ly_npauli L) entries p -> sumR (ly_npauli L) p = 1%R -> solution L kern r (to_vec p).
Proof.
  intros p S N. apply solution_steady. split.
  - intros i Hi. rewrite <- (S i Hi). apply sumR_ext. intros j _. now rewrite to_vec_of.
  - rewrite <- N. apply sumR_ext. intros j _. apply to_vec_of.
Qed.
Lemma state_ind : forall b c, (0 <= c)%Z -> In b (states L c) -> Z.to_nat (ind0 L b b c) < ly_npauli L /\ Z.of_nat (Z.to_nat (ind0 L b b c)) = ind0 L b b c.
Proof. intros b c Hc Hb. destruct (lo_diag L LO b c Hc Hb) as (R & _). lia. Qed.
Lemma gen_solvable : exists x, solution L kern r x /\ forall b c, (0 <= c)%Z -> In b (states L c) -> (0 <= occupation L x b c <= 1)%R.
Proof.
  destruct (steady_exists (ly_npauli L) entries) as (p & S & N & P); [lia|apply entries_rates|].
  exists (to_vec p). split; [now apply to_vec_solution|]. intros b c Hc Hb. rewrite occ_val by auto.
  destruct (state_ind b c Hc Hb) as (A & B). rewrite <- B, to_vec_of. split; [now apply P|]. rewrite <- N. now apply sumR_term.
Qed.
Lemma gen_probabilities : unique_solution L kern r -> forall x, solution L kern r x ->
  forall b c, (0 <= c)%Z -> In b (states L c) -> (0 <= occupation L x b c <= 1)%R.
Proof.
  intros U x S b c Hc Hb. rewrite occ_val by auto. destruct (state_ind b c Hc Hb) as (A & B). rewrite <- B.
  apply solution_steady in S as S'. destruct S' as (S1 & N).
  apply (unique_nonneg (ly_npauli L) entries entries_rates (fun i => x (Z.of_nat i)) S1 N); auto.
  intros q Sq Nq i Hi. rewrite <- (to_vec_of q i). apply U; auto. now apply to_vec_solution.
Qed.
Lemma gen_connected : connected (ly_npauli L) entries -> unique_solution L kern r /\
  forall x, solution L kern r x -> forall b c, (0 <= c)%Z -> In b (states L c) -> (0 < occupation L x b c)%R.
Proof.
  intros C. assert (U : unique_solution L kern r).
  { intros x y Sx Sy i Hi. apply solution_steady in Sx, Sy.
    apply (connected_unique (ly_npauli L) entries entries_rates C (fun i => x (Z.of_nat i)) (fun i => y (Z.of_nat i))); tauto. }
  split; auto. intros x S b c Hc Hb. pose proof (gen_probabilities U x S) as P. apply solution_steady in S as S'. destruct S' as (S1 & N).
  rewrite occ_val by auto. destruct (state_ind b c Hc Hb) as (A & B). rewrite <- B.
  apply (connected_pos (ly_npauli L) entries entries_rates C (fun i => x (Z.of_nat i))); auto; [|lra].
  intros i Hi. destruct (lo_surj L LO i Hi) as (b' & c' & Hc' & Hb' & E). rewrite <- E, <- occ_val by auto. now apply P.
Qed.
End Generic.

(** ** The Pauli approach, without and with phonons *)
Section Props.
Variables (n : nat) (name : string) (si : SI) (L : Lay).
Hypotheses (Hn : 1 <= n) (Hix : ix_of name n <> IxSsq) (SY : system n name si L).
Let LO : layout L := system_layout n name si L Hn Hix SY.
Local Notation N := (charge_of si).
Variables (nl : nat) (T : nat -> nat -> nat -> Cr) (E mu tl dm dp : nat -> R) (it : nat).
Hypothesis HT : hermitian RRing T.
Variable r : Z.
Hypothesis Hr : (0 <= r < Z.of_nat (ly_npauli L))%Z.
Local Notation pf := (pauli_fct L nl T E mu tl dm dp it).
Local Notation kern := (kern_of RRing L (pauli_calls RRing L nl pf)).
Local Notation golden := (golden si T E mu tl dm dp it).

Theorem C69_solvable : exists x, solution L kern r x /\ forall b c, (0 <= c)%Z -> In b (states L c) -> (0 <= occupation L x b c <= 1)%R.
Proof.
  apply (gen_solvable n name si L Hn Hix SY kern); auto.
  - intros i j Hi Hj. now apply (C26_signs n name si L Hn Hix SY nl T E mu tl dm dp it HT i j Hi Hj).
  - apply (C23_pauli_columns RRing n name si L Hn Hix SY).
Qed.
Theorem C69_probabilities : unique_solution L kern r -> forall x, solution L kern r x ->
  forall b c, (0 <= c)%Z -> In b (states L c) -> (0 <= occupation L x b c <= 1)%R.
Proof.
  apply (gen_probabilities n name si L Hn Hix SY kern); auto.
  - intros i j Hi Hj. now apply (C26_signs n name si L Hn Hix SY nl T E mu tl dm dp it HT i j Hi Hj).
  - apply (C23_pauli_columns RRing n name si L Hn Hix SY).
Qed.
(** t is reached from s by transitions whose golden-rule rate is not zero *)
Inductive chain (s : nat) : nat -> Prop :=
| chain_refl : chain s s
| chain_step : forall t u l, chain s t -> In u (cons_states L) -> l < nl -> golden l u t <> 0%R -> chain s u.
Definition all_connected : Prop := forall s t, In s (cons_states L) -> In t (cons_states L) -> chain s t.
Lemma pauli_connects : all_connected -> connected (ly_npauli L) (entries kern).
Proof.
  intros AC. assert (CH := system_charge n name si L Hn Hix SY).
  set (ix := fun s => Z.to_nat (ind0 L s s (Z.of_nat (N s)))).
  assert (IX : forall s, In s (cons_states L) -> ix s < ly_npauli L /\ Z.of_nat (ix s) = ind0 L s s (Z.of_nat (N s))).
  { intros s Hs. apply (cons_block_of L N CH) in Hs. destruct (lo_diag L LO s (Z.of_nat (N s)) ltac:(lia) Hs) as (R & _). unfold ix. lia. }
  assert (CC : forall s t, In s (cons_states L) -> chain s t -> In t (cons_states L) /\ leads_to (ly_npauli L) (entries kern) (ix s) (ix t)).
  { intros s t Hs C. induction C as [|t u l C (Ht & IH) Hu Hl Hg].
    - split; auto. constructor. now apply IX.
    - split; auto. destruct (IX u Hu) as (U1 & U2), (IX t Ht) as (T1 & T2).
      assert (Hne : u <> t). { intros ->. apply Hg. eapply golden_self; eassumption. }
      apply (cons_block_of L N CH) in Hu as Bu. apply (cons_block_of L N CH) in Ht as Bt.
      apply (lead_step _ _ _ (ix t)); auto.
      + intros E0. apply Hne. destruct (lo_inj L LO u u (Z.of_nat (N u)) t t (Z.of_nat (N t))) as (_ & [[A _]|[A _]]); auto; try lia.
      + unfold entries. rewrite U2, T2. rewrite (C26_entries n name si L Hn Hix SY nl T E mu tl dm dp it u _ t _) by (auto; lia).
        destruct (Nat.eq_dec u t); [contradiction|].
        assert (GN : forall l, (0 <= golden l u t)%R) by (intros; now apply golden_nonneg).
        assert (X : (golden l u t <= sumR nl (fun l => golden l u t))%R) by (apply (sumR_term nl (fun l => golden l u t)); auto).
        specialize (GN l). unfold sumR in X. unfold leads. intros Z0. rewrite Z0 in X. apply Hg. apply Rle_antisym; auto. }
  intros i j Hi Hj. destruct (lo_surj L LO i Hi) as (b & c & Hc & Hb & Eb), (lo_surj L LO j Hj) as (b' & c' & Hc' & Hb' & Eb').
  assert (SI_ : forall b c, (0 <= c)%Z -> In b (states L c) -> In b (cons_states L) /\ ix b = Z.to_nat (ind0 L b b c)).
  { intros u q Hq Hu. split; [now apply (cons_in L LO q)|]. unfold ix. rewrite (CH q u Hq Hu). rewrite Z2Nat.id by auto. reflexivity. }
  destruct (SI_ b c Hc Hb) as (B1 & B2), (SI_ b' c' Hc' Hb') as (B1' & B2').
  destruct (CC b b' B1 (AC b b' B1 B1')) as (_ & X). rewrite B2, B2', Eb, Eb', !Nat2Z.id in X. exact X.
Qed.
Theorem C69_connected : all_connected -> unique_solution L kern r /\
  forall x, solution L kern r x -> forall b c, (0 <= c)%Z -> In b (states L c) -> (0 < occupation L x b c)%R.
Proof.
  intros AC. apply (gen_connected n name si L Hn Hix SY kern); auto.
  - intros i j Hi Hj. now apply (C26_signs n name si L Hn Hix SY nl T E mu tl dm dp it HT i j Hi Hj).
  - apply (C23_pauli_columns RRing n name si L Hn Hix SY).
  - now apply pauli_connects.
Qed.
(** coupled states: both rates are positive unless the band or the guard of fermi_func cuts them off *)
Theorem C69_coupled : forall l s t, x_of T l s t <> 0%R -> N s = S (N t) ->
  in_band (E s - E t) (mu l) (tl l) (dm l) (dp l) it = true -> ((E s - E t - mu l) / tl l <= cut)%R ->
  (0 < golden l s t /\ 0 < golden l t s)%R.
Proof.
  intros l s t Hx HN IB GU. clear -HT Hx HN IB GU. pose proof (x_nonneg T HT l s t) as X0.
  assert (Xp : (0 < x_of T l s t)%R) by lra.
  assert (F : (0 < fst (fpauli mu tl dm dp it l (E s - E t)) /\ 0 < snd (fpauli mu tl dm dp it l (E s - E t)))%R).
  { unfold fpauli. rewrite func_pauli_eq. cbv zeta. rewrite IB. rewrite fermi_below by auto.
    pose proof (fermi_range ((E s - E t - mu l) / tl l)). pose proof PI_RGT_0. cbn [fst snd]. split; nra. }
  unfold PropRates.golden. rewrite HN, Nat.eqb_refl. assert ((N t =? S (S (N t)))%nat = false) as -> by (apply Nat.eqb_neq; lia).
  rewrite (x_sym T l t s). split; apply Rmult_lt_0_compat; tauto.
Qed.
End Props.

Section Phonons.
Variables (n : nat) (name : string) (si : SI) (L L2 : Lay).
Hypotheses (Hn : 1 <= n) (Hix : ix_of name n <> IxSsq) (ES : elph_system n name si L L2).
Let SY : system n name si L := proj1 (elph_system_facts n name si L L2 Hn Hix ES).
Let LO : layout L := system_layout n name si L Hn Hix SY.
Variables (nb : nat) (V : nat -> nat -> nat -> Cr) (E tph omm omp : nat -> R) (dos : nat -> R -> R) (eps : R).
Variables (nl : nat) (T : nat -> nat -> nat -> Cr) (mu tl dm dp : nat -> R) (it : nat).
Hypotheses (HT : hermitian RRing T) (He : (0 < eps)%R) (Ht : forall l, l < nb -> (0 < tph l)%R) (Hd : forall l x, (0 <= dos l x)%R).
Variable r : Z.
Hypothesis Hr : (0 <= r < Z.of_nat (ly_npauli L))%Z.
Local Notation wp := (ph_fct L2 nb V E tph omm omp dos eps).
Local Notation pf := (pauli_fct L nl T E mu tl dm dp it).
Local Notation base := (kern_of RRing L (pauli_calls RRing L nl pf)).
Local Notation kern := (kern_of RRing L (elph_pauli_calls RRing L L2 nl nb pf wp)).
Lemma ph_columns : forall j, j < ly_npauli L -> trace_column RRing L kern j = r0.
Proof. apply (C30_pauli RRing n name si L L2 Hn Hix ES nl nb pf wp). Qed.
Lemma ph_above : forall i j, i < ly_npauli L -> j < ly_npauli L -> i <> j -> (base (Z.of_nat i, Z.of_nat j) <= kern (Z.of_nat i, Z.of_nat j))%R.
Proof.
  intros i j Hi Hj Hne. destruct (lo_surj L LO i Hi) as (b & c & Hc & Hb & Eb).
  rewrite <- (act_unit RRing (ly_npauli L) kern) by auto. rewrite <- (act_unit RRing (ly_npauli L) base) by auto.
  rewrite <- Eb. rewrite (C50_rate_equation n name si L L2 Hn Hix ES) by auto.
  match goal with |- (?a <= ?a + ?s)%R => assert (0 <= s)%R; [|lra] end.
  apply rsum_nonneg. intros l Hl. apply in_seq in Hl. apply rsum_nonneg. intros a Ha.
  assert (UV : forall k j, (0 <= unit_vec RRing j k)%R /\ (j <> k -> unit_vec RRing j k = 0%R)).
  { intros k j'. unfold unit_vec. destruct (Z.eq_dec _ _); split; try (intros; congruence); try (simpl; lra); auto. }
  rewrite Eb. rewrite (proj2 (UV (Z.of_nat i) (Z.of_nat j))) by lia. rewrite Rmult_0_r, Rminus_0_r.
  apply Rmult_le_pos; [|apply UV]. apply (ph_golden_nonneg si nb) ; auto; lia.
Qed.
Theorem C69_phonons_solvable : exists x, solution L kern r x /\ forall b c, (0 <= c)%Z -> In b (states L c) -> (0 <= occupation L x b c <= 1)%R.
Proof.
  apply (gen_solvable n name si L Hn Hix SY kern); auto; [|apply ph_columns].
  intros i j Hi Hj. now apply (C50_signs n name si L L2 Hn Hix ES nb V E tph omm omp dos eps nl T mu tl dm dp it HT He Ht Hd i j Hi Hj).
Qed.
Theorem C69_phonons_probabilities : unique_solution L kern r -> forall x, solution L kern r x ->
  forall b c, (0 <= c)%Z -> In b (states L c) -> (0 <= occupation L x b c <= 1)%R.
Proof.
  apply (gen_probabilities n name si L Hn Hix SY kern); auto; [|apply ph_columns].
  intros i j Hi Hj. now apply (C50_signs n name si L L2 Hn Hix ES nb V E tph omm omp dos eps nl T mu tl dm dp it HT He Ht Hd i j Hi Hj).
Qed.
Theorem C69_phonons_connected : all_connected si L nl T E mu tl dm dp it -> unique_solution L kern r /\
  forall x, solution L kern r x -> forall b c, (0 <= c)%Z -> In b (states L c) -> (0 < occupation L x b c)%R.
Proof.
  intros AC. apply (gen_connected n name si L Hn Hix SY kern); auto; [|apply ph_columns|].
  - intros i j Hi Hj. now apply (C50_signs n name si L L2 Hn Hix ES nb V E tph omm omp dos eps nl T mu tl dm dp it HT He Ht Hd i j Hi Hj).
  - intros i j Hi Hj. pose proof (pauli_connects n name si L Hn Hix SY nl T E mu tl dm dp it HT AC i j Hi Hj) as C. clear Hi Hj.
    induction C as [i Hi|i j k C IH Hk Hne Hw]; [now constructor|]. apply (lead_step _ _ _ j); auto.
    assert (Hj : j < ly_npauli L) by (clear -C; induction C; auto).
    pose proof (ph_above k j Hk Hj Hne) as A. destruct (C26_signs n name si L Hn Hix SY nl T E mu tl dm dp it HT k j Hk Hj) as (B & _).
    specialize (B Hne). unfold entries in *. intros Z0. apply Hw. rewrite Z0 in A. apply Rle_antisym; auto.
Qed.
End Phonons.

(** ** A biased double dot *)
Lemma chain_trans : forall si L nl T E mu tl dm dp it s t u, chain si L nl T E mu tl dm dp it s t -> chain si L nl T E mu tl dm dp it t u ->
  chain si L nl T E mu tl dm dp it s u.
Proof. intros * A B. induction B; auto. eapply chain_step; eauto. Qed.
Definition sx_mu (l : nat) : R := match l with O => 2 | _ => -1 end%R.
Definition sx_tl (l : nat) : R := match l with O => 1/2 | _ => 1 end%R.
Lemma sx_x : forall s t, s <> t -> (x_of ry_T 1 s t <> 0)%R.
Proof.
  intros s t H. unfold x_of, ry_T. rewrite re_mul. rewrite (proj2 (Nat.eqb_neq t s)), (proj2 (Nat.eqb_neq s t)) by auto. cbn [re im].
  rsimp. rewrite !plus_INR. pose proof (pos_INR s). pose proof (pos_INR t). change (INR 1) with 1%R. nra.
Qed.
Lemma sx_pair : forall s t, In s (cons_states ex_L) -> In t (cons_states ex_L) -> charge_of ex_si s = S (charge_of ex_si t) ->
  (0 < golden ex_si ry_T ry_E sx_mu sx_tl (fun _ => -100) (fun _ => 100) 0 1 s t /\
   0 < golden ex_si ry_T ry_E sx_mu sx_tl (fun _ => -100) (fun _ => 100) 0 1 t s)%R.
Proof.
  intros s t Hs Ht HN. assert (A : forall b, (0 <= ry_E b <= 6)%R) by (intros [|[|[|]]]; simpl; lra).
  pose proof (A s). pose proof (A t). apply C69_coupled; auto; [apply ry_herm|apply sx_x; intros ->; lia| |].
  - apply in_band_true. unfold band. simpl. right. right. lra.
  - simpl. unfold cut. lra.
Qed.
Example C69_case :
  let kern := kern_of RRing ex_L (pauli_calls RRing ex_L 2 (pauli_fct ex_L 2 ry_T ry_E sx_mu sx_tl (fun _ => -100) (fun _ => 100) 0))%R in
  all_connected ex_si ex_L 2 ry_T ry_E sx_mu sx_tl (fun _ => -100)%R (fun _ => 100)%R 0 /\
  exists x, solution ex_L kern 0 x /\ (0 < x 0%Z < 1 /\ 0 < x 1%Z < 1 /\ 0 < x 2%Z < 1 /\ 0 < x 3%Z < 1)%R.
Proof.
  assert (Hix : ix_of "charge" 2 <> IxSsq) by discriminate. assert (H2 : 1 <= 2) by lia. intros kern.
  assert (AC : all_connected ex_si ex_L 2 ry_T ry_E sx_mu sx_tl (fun _ => -100)%R (fun _ => 100)%R 0).
  { assert (X : forall s, In s (cons_states ex_L) -> s = 0 \/ s = 1 \/ s = 2 \/ s = 3) by (intros s Hs; vm_compute in Hs; intuition auto).
    assert (I : In 0 (cons_states ex_L) /\ In 1 (cons_states ex_L) /\ In 2 (cons_states ex_L) /\ In 3 (cons_states ex_L)) by (vm_compute; intuition auto).
    destruct I as (I0 & I1 & I2 & I3).
    assert (LK : forall s t, In s (cons_states ex_L) -> In t (cons_states ex_L) -> charge_of ex_si s = S (charge_of ex_si t) ->
       chain ex_si ex_L 2 ry_T ry_E sx_mu sx_tl (fun _ => -100)%R (fun _ => 100)%R 0 t s /\ chain ex_si ex_L 2 ry_T ry_E sx_mu sx_tl (fun _ => -100)%R (fun _ => 100)%R 0 s t).
    { intros s t Hs Ht HN. destruct (sx_pair s t Hs Ht HN) as (A & B).
      split; (eapply (chain_step _ _ _ _ _ _ _ _ _ _ _ _ _ 1); [apply chain_refl|auto|lia|apply Rgt_not_eq; eassumption]). }
    pose proof (LK 1 0 I1 I0 eq_refl) as (A1 & B1). pose proof (LK 2 0 I2 I0 eq_refl) as (A2 & B2). pose proof (LK 3 1 I3 I1 eq_refl) as (A3 & B3).
    assert (Z0 : forall s, In s (cons_states ex_L) -> chain ex_si ex_L 2 ry_T ry_E sx_mu sx_tl (fun _ => -100)%R (fun _ => 100)%R 0 0 s /\
                                                     chain ex_si ex_L 2 ry_T ry_E sx_mu sx_tl (fun _ => -100)%R (fun _ => 100)%R 0 s 0).
    { intros s Hs. destruct (X s Hs) as [->|[->|[->| ->]]]; split; try apply chain_refl; auto; [exact (chain_trans _ _ _ _ _ _ _ _ _ _ _ _ _ A1 A3)|exact (chain_trans _ _ _ _ _ _ _ _ _ _ _ _ _ B3 B1)]. }
    intros s t Hs Ht. eapply chain_trans; [apply Z0|apply Z0]; auto. }
  split; auto.
  destruct (C69_solvable 2 "charge" ex_si ex_L H2 Hix ex_system 2 ry_T ry_E sx_mu sx_tl (fun _ => -100)%R (fun _ => 100)%R 0 ry_herm 0) as (x & SX & _); [split; [lia|reflexivity]|].
  exists x. split; auto.
  destruct (C69_connected 2 "charge" ex_si ex_L H2 Hix ex_system 2 ry_T ry_E sx_mu sx_tl (fun _ => -100)%R (fun _ => 100)%R 0 ry_herm 0) as (_ & P); auto; [split; [lia|reflexivity]|].
  assert (Q : forall b c, (0 <= c)%Z -> In b (states ex_L c) -> (0 < x (ind0 ex_L b b c))%R).
  { intros b c Hc Hb. rewrite <- (occ_val 2 "charge" ex_si ex_L H2 Hix ex_system) by auto. now apply P. }
  apply (solution_steady 2 "charge" ex_si ex_L H2 Hix ex_system) in SX as (_ & NR); [|apply (C23_pauli_columns RRing 2 "charge" ex_si ex_L H2 Hix ex_system)|split; [lia|reflexivity]].
  change (ly_npauli ex_L) with 4 in NR. rewrite !sumR_S, sumR_0 in NR. cbn [Z.of_nat Pos.of_succ_nat Pos.succ] in NR.
  pose proof (Q 0 0%Z ltac:(lia) ltac:(vm_compute; auto)) as Q0. pose proof (Q 1 1%Z ltac:(lia) ltac:(vm_compute; auto)) as Q1.
  pose proof (Q 2 1%Z ltac:(lia) ltac:(vm_compute; auto)) as Q2. pose proof (Q 3 2%Z ltac:(lia) ltac:(vm_compute; auto)) as Q3.
  change (ind0 ex_L 0 0 0) with 0%Z in Q0. change (ind0 ex_L 1 1 1) with 1%Z in Q1. change (ind0 ex_L 2 2 1) with 2%Z in Q2. change (ind0 ex_L 3 3 2) with 3%Z in Q3.
  lra.
Qed.

Example C69_phonons_case :
  let kern := kern_of RRing ex_L (elph_pauli_calls RRing ex_L ex_L2 2 1 (pauli_fct ex_L 2 ry_T ry_E sx_mu sx_tl (fun _ => -100) (fun _ => 100) 0) (rz_wp ry_E))%R in
  exists x, solution ex_L kern 0 x /\ (0 < occupation ex_L x 0 0 /\ 0 < occupation ex_L x 1 1 /\ 0 < occupation ex_L x 2 1 /\ 0 < occupation ex_L x 3 2)%R.
Proof.
  assert (Hix : ix_of "charge" 2 <> IxSsq) by discriminate. assert (H2 : 1 <= 2) by lia. intros kern.
  assert (R0 : (0 <= 0 < Z.of_nat (ly_npauli ex_L))%Z) by (split; [lia|reflexivity]).
  assert (EP : (0 < rz_eps)%R) by (unfold rz_eps; lra). assert (TP : forall l, l < 1 -> (0 < (fun _ : nat => 1/2) l)%R) by (intros; lra).
  assert (DP : forall l x, (0 <= (fun (_ : nat) (_ : R) => 1) l x)%R) by (intros; lra).
  destruct (C69_phonons_solvable 2 "charge" ex_si ex_L ex_L2 H2 Hix C30_system 1 rz_V ry_E _ (fun _ => 0)%R (fun _ => 50)%R _ rz_eps 2 ry_T sx_mu sx_tl (fun _ => -100)%R (fun _ => 100)%R 0 ry_herm EP TP DP 0 R0) as (x & SX & _).
  destruct (C69_phonons_connected 2 "charge" ex_si ex_L ex_L2 H2 Hix C30_system 1 rz_V ry_E _ (fun _ => 0)%R (fun _ => 50)%R _ rz_eps 2 ry_T sx_mu sx_tl (fun _ => -100)%R (fun _ => 100)%R 0 ry_herm EP TP DP 0 R0) as (_ & P); [apply C69_case|].
  exists x. split; [exact SX|]. repeat split; apply P; auto; try lia; vm_compute; auto.
Qed.

(** Without uniqueness a solution of the linear system need not consist of probabilities: uncoupled dots, any normalised vector solves. *)
Definition sx_vec (k : Z) : R := match k with 0%Z => 2 | 1%Z => -1 | _ => 0 end%R.
Theorem C69_degenerate_refuted :
  let kern := kern_of RRing ex_L (pauli_calls RRing ex_L 2 (pauli_fct ex_L 2 (fun _ _ _ => @mkC RRing 0%R 0%R) ry_E sx_mu sx_tl (fun _ => -100) (fun _ => 100) 0))%R in
  hermitian RRing (fun _ _ _ => @mkC RRing 0%R 0%R) /\ solution ex_L kern 0 sx_vec /\ (occupation ex_L sx_vec 1 1 < 0)%R.
Proof.
  assert (Hix : ix_of "charge" 2 <> IxSsq) by discriminate. assert (H2 : 1 <= 2) by lia. intros kern.
  set (T0 := (fun _ _ _ : nat => @mkC RRing 0%R 0%R)) in *.
  split; [intros l a b; apply cplx_eq; rsimp; simpl; match goal with |- @eq _ ?u ?v => change (@eq R u v) end; lra|]. split.
  - apply (solution_steady 2 "charge" ex_si ex_L H2 Hix ex_system); [apply (C23_pauli_columns RRing 2 "charge" ex_si ex_L H2 Hix ex_system)|split; [lia|reflexivity]|].
    split.
    + intros i Hi. apply sumR_zero. intros j Hj. unfold entries.
      destruct (lo_surj ex_L (system_layout 2 "charge" ex_si ex_L H2 Hix ex_system) i Hi) as (b & c & Hc & Hb & <-).
      destruct (lo_surj ex_L (system_layout 2 "charge" ex_si ex_L H2 Hix ex_system) j Hj) as (a & q & Hq & Ha & <-).
      unfold kern. rewrite (C26_entries 2 "charge" ex_si ex_L H2 Hix ex_system) by auto.
      assert (G0 : forall l s t, golden ex_si T0 ry_E sx_mu sx_tl (fun _ => -100)%R (fun _ => 100)%R 0 l s t = 0%R).
      { intros l s t. unfold golden. assert (x_of T0 l s t = 0%R) as -> by (unfold x_of, T0; rewrite re_mul; cbn [re im]; rsimp; lra).
        destruct (_ =? _); [|destruct (_ =? _); auto]; apply Rmult_0_l. }
      destruct (Nat.eq_dec b a).
      * rewrite (rsum_0 RRing); [rring|]. intros l _. rewrite (rsum_0 RRing); [rring|]. intros t _. apply G0.
      * rewrite (rsum_0 RRing); [rring|]. intros l _. apply G0.
    + change (ly_npauli ex_L) with 4. rewrite !sumR_S, sumR_0. cbn. lra.
  - rewrite (occ_val 2 "charge" ex_si ex_L H2 Hix ex_system) by (try lia; vm_compute; auto). change (ind0 ex_L 1 1 1) with 1%Z. cbn. lra.
Qed.
Print Assumptions C69_solvable.
Print Assumptions C69_probabilities.
Print Assumptions C69_connected.
Print Assumptions C69_coupled.
Print Assumptions C69_phonons_solvable.
Print Assumptions C69_phonons_probabilities.
Print Assumptions C69_phonons_connected.
Print Assumptions C69_degenerate_refuted.
