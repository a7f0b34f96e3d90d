(** Property C56 for the arrays of rates that the approaches compute from the energies. *)
From Coq Require Import String List Arith Lia ZArith Bool Permutation Ring Reals Lra.
From Verif Require Import Base Bits Indexing IndexingProofs RemoveProofs Binom SsqProofs Qn
  PropIndexing DMIndex DMIndexProofs DMReach PropDMIndex CRing SpecFunc Layout Coherences Kernel KernelProofs
  PauliProofs CohProofs CohKernels CohCurrents PropKernel MasterEq PropMaster Rates PropRates PropAgree BasisChange PropBasis.
Import ListNotations.
Open Scope nat_scope.
Local Notation length := List.length.
Local Notation Cr := (Cx RRing).

Section Results.
Variables (n : nat) (name : string) (si : SI) (L : Lay).
Hypotheses (Hn : (1 <= n)%nat) (Hix : ix_of name n <> IxSsq) (SY : system n name si L).
Let LO : layout L := system_layout n name si L Hn Hix SY.
Let CH := system_charge n name si L Hn Hix SY.
Local Notation N := (charge_of si).
Local Notation SS := (cons_states L).
Local Notation act := (act RRing (ly_ndm0r L)).
Local Notation h := (1 / 2)%R.
(** the leads, the energies, the tunneling amplitudes for one choice of eigenvectors and for another *)
Variables (nl : nat) (E mu tl dm dp : nat -> R) (it : nat) (quad : R -> R -> R -> R) (digamma_re : R -> R).
Variables (U : Op RRing) (T T' : nat -> nat -> nat -> Cr).
(** U describes the other eigenvectors: it mixes eigenstates of the same charge and energy *)
Hypotheses (UN : unitary RRing SS U) (ME : mixes_equal RRing SS N E U) (KP : keeps RRing si L U).
Hypotheses (HT : hermitian RRing T) (HT' : hermitian RRing T')
  (TT : forall l, (l < nl)%nat -> same RRing SS (T' l) (rot RRing SS U (T l))).
Local Notation related := (related RRing si L U).
Local Notation Fv := (vn1_fct L nl E mu tl dm dp it quad digamma_re).
Local Notation Fe := (vn1_fct_energy L nl E mu tl dm dp it quad digamma_re).
Local Notation tL T := (lindblad_fct L nl T E mu tl dm dp it).
Local Notation tab F q := (tab RRing L N F q).

Lemma half_R1 : @eq RRing (radd (h : RRing) h) r1.
Proof. simpl. match goal with |- @eq _ ?u ?v => change (@eq R u v) end. lra. Qed.
Lemma block_up : forall s t, In s SS -> In t SS -> N s = S (N t) -> (0 <= Z.of_nat (N t))%Z /\ In s (states L (Z.of_nat (N t) + 1)) /\ In t (states L (Z.of_nat (N t))).
Proof.
  intros s t Hs Ht H. repeat split; [lia| |now apply (ss_block n name si L Hn Hix SY)].
  replace (Z.of_nat (N t) + 1)%Z with (Z.of_nat (N s)) by lia. now apply (ss_block n name si L Hn Hix SY).
Qed.
Lemma levels_v : forall F : nat -> nat -> bool -> Cr, (F = Fv \/ F = Fe) ->
  forall l s t s' t', (l < nl)%nat -> In s SS -> In t SS -> In s' SS -> In t' SS -> N s = S (N t) ->
  N s = N s' -> E s = E s' -> N t = N t' -> E t = E t' -> tab F false l s t = tab F false l s' t' /\ tab F true l s t = tab F true l s' t'.
Proof.
  intros F HF l s t s' t' Hl Hs Ht Hs' Ht' A B1 B2 B3 B4.
  destruct (block_up s t Hs Ht A) as (X1 & X2 & X3). destruct (block_up s' t' Hs' Ht' ltac:(congruence)) as (Y1 & Y2 & Y3).
  unfold MasterEq.tab. destruct HF as [-> | ->].
  - rewrite !(vn1_fct_val L LO) by auto. now rewrite B2, B4.
  - rewrite !(vn1_fct_energy_val L LO) by auto. now rewrite B2, B4.
Qed.
Lemma jump_rot : forall l, (l < nl)%nat -> same RRing SS (op_up RRing N (tL T' l)) (rot RRing SS U (op_up RRing N (tL T l))) /\
  same RRing SS (op_dn RRing N (tL T' l)) (rot RRing SS U (op_dn RRing N (tL T l))).
Proof.
  intros l Hl.
  set (G1 := op_up RRing N (fun s t => @ofR RRing (sqrt (fst (fpauli mu tl dm dp it l (E s - E t)%R))))).
  set (G2 := op_dn RRing N (fun s t => @ofR RRing (sqrt (snd (fpauli mu tl dm dp it l (E t - E s)%R))))).
  assert (B1 : by_level RRing SS N E G1).
  { intros s t s' t' _ _ _ _ X1 X2 X3 X4. unfold G1, op_up. now rewrite X1, X2, X3, X4. }
  assert (B2 : by_level RRing SS N E G2).
  { intros s t s' t' _ _ _ _ X1 X2 X3 X4. unfold G2, op_dn. now rewrite X1, X2, X3, X4. }
  assert (V1 : forall T0, same RRing SS (op_up RRing N (tL T0 l)) (op_had RRing G1 (T0 l))).
  { intros T0 s t Hs Ht. unfold op_up, op_had, G1, op_up. destruct (Nat.eqb_spec (N s) (S (N t))) as [e|e].
    - destruct (block_up s t Hs Ht e) as (X1 & X2 & X3). now apply (lindblad_fct_val L LO nl T0 E mu tl dm dp it l s t (Z.of_nat (N t))).
    - apply cplx_eq; simpl; ring. }
  assert (V2 : forall T0, same RRing SS (op_dn RRing N (tL T0 l)) (op_had RRing G2 (T0 l))).
  { intros T0 s t Hs Ht. unfold op_dn, op_had, G2, op_dn. destruct (Nat.eqb_spec (S (N s)) (N t)) as [e|e].
    - destruct (block_up t s Ht Hs (eq_sym e)) as (X1 & X2 & X3). now apply (lindblad_fct_val L LO nl T0 E mu tl dm dp it l t s (Z.of_nat (N s))).
    - apply cplx_eq; simpl; ring. }
  split; intros s t Hs Ht.
  - rewrite V1 by auto. rewrite (rot_ext RRing SS U _ _ (V1 T)). rewrite (rot_had RRing SS N E U ME G1 (T l) B1) by auto. unfold op_had. now rewrite TT.
  - rewrite V2 by auto. rewrite (rot_ext RRing SS U _ _ (V2 T)). rewrite (rot_had RRing SS N E U ME G2 (T l) B2) by auto. unfold op_had. now rewrite TT.
Qed.

Definition kvn1 T := kern_of RRing L (vn1_calls RRing L nl T Fv E).
Definition kred T := kern_of RRing L (red_calls RRing L nl T Fv E).
Definition klin T := kern_of RRing L (lindblad_calls RRing L nl h (tL T) E).

(** *** covariance: kernel, trace, currents *)
Theorem C56_vn1 : forall phi phi', related phi phi' ->
  related (act (kvn1 T) phi) (act (kvn1 T') phi') /\ phi0_norm RRing L phi' = phi0_norm RRing L phi /\
  forall l, (l < nl)%nat -> vn1_current RRing L phi' T' Fv l = vn1_current RRing L phi T Fv l /\
    vn1_energy_current L phi' T' Fe l = vn1_energy_current L phi T Fe l.
Proof.
  intros phi phi' R. assert (ND : NoDup SS) by apply (ss_nodup n name si L Hn Hix SY). repeat split.
  - refine (related_kernel RRing n name si L Hn Hix SY E U UN ME KP nl _ _ (vn1_lead RRing SS N T (tab Fv false) (tab Fv true))
      (vn1_lead RRing SS N T' (tab Fv false) (tab Fv true)) _ _ _ phi phi' R).
    + intros p b bp c EL. apply (C46_vn1 RRing n name si L Hn Hix SY nl h T Fv E p b bp c half_R1 HT EL).
    + intros p b bp c EL. apply (C46_vn1 RRing n name si L Hn Hix SY nl h T' Fv E p b bp c half_R1 HT' EL).
    + intros r r' Hr l Hl. apply (vn1_rot RRing SS N E U ND UN ME nl T T' r r' TT Hr _ _ (levels_v Fv (or_introl eq_refl)) l Hl).
  - apply (related_norm RRing n name si L Hn Hix SY E U UN ME phi phi' R).
  - rewrite (C47_vn1 RRing n name si L Hn Hix SY h T Fv phi l half_R1 HT), (C47_vn1 RRing n name si L Hn Hix SY h T' Fv phi' l half_R1 HT').
    apply (weighted_rot RRing n name si L Hn Hix SY E U UN ME); [now intros s s' ->|].
    apply (vn1_rot RRing SS N E U ND UN ME nl T T' _ _ TT R _ _ (levels_v Fv (or_introl eq_refl)) l H).
  - unfold vn1_energy_current. rewrite (C47_vn1 RRing n name si L Hn Hix SY h T Fe phi l half_R1 HT), (C47_vn1 RRing n name si L Hn Hix SY h T' Fe phi' l half_R1 HT').
    apply (weighted_rot RRing n name si L Hn Hix SY E U UN ME); [now intros s s' ->|].
    apply (vn1_rot RRing SS N E U ND UN ME nl T T' _ _ TT R _ _ (levels_v Fe (or_intror eq_refl)) l H).
Qed.
Theorem C56_redfield : forall phi phi', related phi phi' ->
  related (act (kred T) phi) (act (kred T') phi') /\ phi0_norm RRing L phi' = phi0_norm RRing L phi /\
  forall l, (l < nl)%nat -> red_current RRing L phi' T' Fv l = red_current RRing L phi T Fv l /\
    red_energy_current L phi' T' Fe l = red_energy_current L phi T Fe l.
Proof.
  intros phi phi' R. assert (ND : NoDup SS) by apply (ss_nodup n name si L Hn Hix SY). repeat split.
  - refine (related_kernel RRing n name si L Hn Hix SY E U UN ME KP nl _ _ (red_lead RRing SS N T (tab Fv false) (tab Fv true))
      (red_lead RRing SS N T' (tab Fv false) (tab Fv true)) _ _ _ phi phi' R).
    + intros p b bp c EL. apply (C46_redfield RRing n name si L Hn Hix SY nl h T Fv E p b bp c half_R1 HT EL).
    + intros p b bp c EL. apply (C46_redfield RRing n name si L Hn Hix SY nl h T' Fv E p b bp c half_R1 HT' EL).
    + intros r r' Hr l Hl. apply (red_rot RRing SS N E U ND UN ME nl T T' r r' TT Hr _ _ (levels_v Fv (or_introl eq_refl)) l Hl).
  - apply (related_norm RRing n name si L Hn Hix SY E U UN ME phi phi' R).
  - rewrite (C47_redfield RRing n name si L Hn Hix SY h T Fv phi l half_R1 HT), (C47_redfield RRing n name si L Hn Hix SY h T' Fv phi' l half_R1 HT').
    apply (weighted_rot RRing n name si L Hn Hix SY E U UN ME); [now intros s s' ->|].
    apply (red_rot RRing SS N E U ND UN ME nl T T' _ _ TT R _ _ (levels_v Fv (or_introl eq_refl)) l H).
  - unfold red_energy_current. rewrite (C47_redfield RRing n name si L Hn Hix SY h T Fe phi l half_R1 HT), (C47_redfield RRing n name si L Hn Hix SY h T' Fe phi' l half_R1 HT').
    apply (weighted_rot RRing n name si L Hn Hix SY E U UN ME); [now intros s s' ->|].
    apply (red_rot RRing SS N E U ND UN ME nl T T' _ _ TT R _ _ (levels_v Fe (or_intror eq_refl)) l H).
Qed.
Theorem C56_lindblad : forall phi phi', related phi phi' ->
  related (act (klin T) phi) (act (klin T') phi') /\ phi0_norm RRing L phi' = phi0_norm RRing L phi /\
  forall l, (l < nl)%nat -> lindblad_current RRing L phi' (tL T') l = lindblad_current RRing L phi (tL T) l /\
    lindblad_energy_current RRing L phi' h (tL T') E l = lindblad_energy_current RRing L phi h (tL T) E l.
Proof.
  intros phi phi' R. assert (ND : NoDup SS) by apply (ss_nodup n name si L Hn Hix SY).
  assert (J : forall r r', same RRing SS r' (rot RRing SS U r) -> forall l, (l < nl)%nat ->
     same RRing SS (lindblad_lead RRing SS N h (tL T') r' l) (rot RRing SS U (lindblad_lead RRing SS N h (tL T) r l))).
  { intros r r' Hr l Hl. destruct (jump_rot l Hl) as (A & B). apply (lindblad_rot RRing SS N U ND UN r r' Hr h (tL T) (tL T') l A B). }
  split; [|split].
  - refine (related_kernel RRing n name si L Hn Hix SY E U UN ME KP nl _ _ (lindblad_lead RRing SS N h (tL T))
      (lindblad_lead RRing SS N h (tL T')) _ _ J phi phi' R).
    + intros p b bp c EL. apply (C46_lindblad RRing n name si L Hn Hix SY nl h (tL T) E p b bp c half_R1 EL).
    + intros p b bp c EL. apply (C46_lindblad RRing n name si L Hn Hix SY nl h (tL T') E p b bp c half_R1 EL).
  - apply (related_norm RRing n name si L Hn Hix SY E U UN ME phi phi' R).
  - intros l Hl. destruct (C47_lindblad RRing n name si L Hn Hix SY h (tL T) E phi l half_R1) as (A & B).
    destruct (C47_lindblad RRing n name si L Hn Hix SY h (tL T') E phi' l half_R1) as (A' & B'). rewrite A, A', B, B'.
    split; apply (weighted_rot RRing n name si L Hn Hix SY E U UN ME); auto; now intros s s' -> ->.
Qed.

(** *** stationary states *)
(** what the solver returns: the kernel times phi0 is zero and the trace is one *)
Definition solution (kern : Z * Z -> R) (phi : Z -> R) : Prop :=
  (forall k, inr (ly_ndm0r L) k -> act kern phi k = 0%R) /\ phi0_norm RRing L phi = 1%R.
Definition unique (kern : Z * Z -> R) : Prop := forall p q, solution kern p -> solution kern q -> forall k, inr (ly_ndm0r L) k -> p k = q k.

Lemma solution_moves : forall kern kern', (forall phi phi', related phi phi' -> related (act kern phi) (act kern' phi') /\ phi0_norm RRing L phi' = phi0_norm RRing L phi) ->
  forall phi, solution kern phi -> (exists phi', related phi phi' /\ solution kern' phi') /\
    (forall phi', unique kern' -> solution kern' phi' -> related phi phi').
Proof.
  intros kern kern' H phi (S1 & S2).
  assert (X : exists phi', related phi phi' /\ solution kern' phi').
  { destruct (related_exists RRing n name si L Hn Hix SY U h half_R1 KP phi) as (phi' & R). exists phi'. split; auto.
    destruct (H phi phi' R) as (R' & Q). split; [|now rewrite Q].
    apply (related_zero RRing n name si L Hn Hix SY U _ _ R' S1). }
  split; auto. intros phi' UQ S'. destruct X as (phi1 & R1 & S3). apply (related_ext RRing n name si L Hn Hix SY U phi phi1 phi' R1).
  intros k Hk. now apply UQ.
Qed.
(** the stationary states for the two choices of eigenvectors are the same density matrix; if the solution is unique,
    the returned currents and energy currents are equal *)
Theorem C56_vn1_solution : forall phi, solution (kvn1 T) phi ->
  (exists phi', related phi phi' /\ solution (kvn1 T') phi') /\
  (forall phi', unique (kvn1 T') -> solution (kvn1 T') phi' -> forall l, (l < nl)%nat ->
     vn1_current RRing L phi' T' Fv l = vn1_current RRing L phi T Fv l /\ vn1_energy_current L phi' T' Fe l = vn1_energy_current L phi T Fe l).
Proof.
  intros phi S0. destruct (solution_moves (kvn1 T) (kvn1 T')) with (phi := phi) as (A & B); auto.
  { intros p p' R. destruct (C56_vn1 p p' R) as (X & Y & _). auto. }
  split; auto. intros phi' UQ S' l Hl. now apply (proj2 (proj2 (C56_vn1 phi phi' (B phi' UQ S')))).
Qed.
Theorem C56_redfield_solution : forall phi, solution (kred T) phi ->
  (exists phi', related phi phi' /\ solution (kred T') phi') /\
  (forall phi', unique (kred T') -> solution (kred T') phi' -> forall l, (l < nl)%nat ->
     red_current RRing L phi' T' Fv l = red_current RRing L phi T Fv l /\ red_energy_current L phi' T' Fe l = red_energy_current L phi T Fe l).
Proof.
  intros phi S0. destruct (solution_moves (kred T) (kred T')) with (phi := phi) as (A & B); auto.
  { intros p p' R. destruct (C56_redfield p p' R) as (X & Y & _). auto. }
  split; auto. intros phi' UQ S' l Hl. now apply (proj2 (proj2 (C56_redfield phi phi' (B phi' UQ S')))).
Qed.
Theorem C56_lindblad_solution : forall phi, solution (klin T) phi ->
  (exists phi', related phi phi' /\ solution (klin T') phi') /\
  (forall phi', unique (klin T') -> solution (klin T') phi' -> forall l, (l < nl)%nat ->
     lindblad_current RRing L phi' (tL T') l = lindblad_current RRing L phi (tL T) l /\
     lindblad_energy_current RRing L phi' h (tL T') E l = lindblad_energy_current RRing L phi h (tL T) E l).
Proof.
  intros phi S0. destruct (solution_moves (klin T) (klin T')) with (phi := phi) as (A & B); auto.
  { intros p p' R. destruct (C56_lindblad p p' R) as (X & Y & _). auto. }
  split; auto. intros phi' UQ S' l Hl. now apply (proj2 (proj2 (C56_lindblad phi phi' (B phi' UQ S')))).
Qed.

(** *** Pauli: eigenvectors multiplied by phases *)
Hypothesis DG : forall s t, s <> t -> U s t = r0.
Lemma pauli_fct_phase : forall l c b q s, (0 <= q)%Z -> In c (states L (q + 1)) -> In b (states L q) -> (l < nl)%nat ->
  pauli_fct L nl T' E mu tl dm dp it l (ind1 L c b q) s = pauli_fct L nl T E mu tl dm dp it l (ind1 L c b q) s.
Proof.
  intros l c b q s Hq Hc Hb Hl. rewrite !(pauli_fct_val L LO) by auto. f_equal.
  assert (Bc : In c SS) by (apply (cons_in L LO (q + 1)); auto; lia). assert (Bb : In b SS) by (apply (cons_in L LO q); auto).
  assert (ND : NoDup SS) by apply (ss_nodup n name si L Hn Hix SY).
  assert (V : forall X s t, In s SS -> In t SS -> rot RRing SS U X s t = rmul (rmul (U s s) (X s t)) (conj (U t t))).
  { intros X u v Hu Hv. unfold rot. rewrite (rsum_single Cr _ _ SS u ND Hu).
    - rewrite (rsum_single Cr _ _ SS v ND Hv); auto. intros y _ Hy. rewrite (DG v y) by auto. apply cplx_eq; simpl; ring.
    - intros y _ Hy. apply (rsum_0 Cr). intros z _. rewrite (DG u y) by auto. apply cplx_eq; simpl; ring. }
  assert (P : forall s, In s SS -> rmul (U s s) (conj (U s s)) = (r1 : Cr)).
  { intros u Hu. pose proof (proj1 UN u u Hu Hu) as X. rewrite (rsum_single Cr _ _ SS u ND Hu) in X.
    - rewrite X. unfold delta. now rewrite Nat.eqb_refl.
    - intros y _ Hy. rewrite (DG u y) by auto. apply cplx_eq; simpl; ring. }
  rewrite !TT by auto. rewrite !V by auto.
  transitivity (re (rmul (rmul (rmul (U b b) (conj (U b b))) (rmul (U c c) (conj (U c c)))) (rmul (T l b c) (T l c b)) : Cr)).
  - f_equal. apply cplx_eq; simpl; ring.
  - rewrite !P by auto. f_equal. apply cplx_eq; simpl; ring.
Qed.
Local Notation pf T := (pauli_fct L nl T E mu tl dm dp it).
Lemma flat_map_same : forall A B (f g : A -> list B) l, (forall x, In x l -> f x = g x) -> flat_map f l = flat_map g l.
Proof. induction l as [|x l IH]; simpl; intros H; auto. rewrite H by auto. now rewrite IH by auto. Qed.
Theorem C56_pauli : (forall ij, kern_of RRing L (pauli_calls RRing L nl (pf T')) ij = kern_of RRing L (pauli_calls RRing L nl (pf T)) ij) /\
  forall phi l, (l < nl)%nat -> pauli_current RRing L phi (pf T') l = pauli_current RRing L phi (pf T) l /\
    pauli_energy_current RRing L phi (pf T') E l = pauli_energy_current RRing L phi (pf T) E l.
Proof.
  assert (LD : forall l, In l (leads nl) -> (l < nl)%nat) by (intros l Hl; unfold leads in Hl; apply in_seq in Hl; lia).
  split.
  - intros ij. assert (X : pauli_calls RRing L nl (pf T') = pauli_calls RRing L nl (pf T)); [|now rewrite X]. unfold pauli_calls, generate_kern_pauli. apply flat_map_same. intros c Hc. apply charges_in in Hc.
    apply flat_map_same. intros b Hb. destruct (is_unique L b b c); auto. unfold pauli_coupling. cbv zeta. f_equal; apply map_ext_in; intros a Ha.
    + assert (Hc1 : (0 <= c - 1)%Z). { destruct (Z.eq_dec c 0) as [->|]; [|lia]. change (0 - 1)%Z with (-1)%Z in Ha. rewrite (lo_below L LO) in Ha. destruct Ha. }
      assert (Hb' : In b (states L (c - 1 + 1))) by now replace (c - 1 + 1)%Z with c by lia.
      f_equal; apply (rsum_ext RRing); intros l Hl; now rewrite pauli_fct_phase by auto.
    + f_equal; apply (rsum_ext RRing); intros l Hl; rewrite pauli_fct_phase; auto; lia.
  - assert (FL : forall phi l c b q, (l < nl)%nat -> (0 <= q)%Z -> In c (states L (q + 1)) -> In b (states L q) ->
      pauli_flow RRing L phi (pf T') l c b q = pauli_flow RRing L phi (pf T) l c b q).
    { intros phi l c b q Hl Hq Hc Hb. unfold pauli_flow. now rewrite !pauli_fct_phase by auto. }
    intros phi l Hl. split; unfold pauli_current, pauli_energy_current; apply (rsum_ext RRing); intros q Hq; unfold charges1 in Hq; apply in_map_iff in Hq;
      destruct Hq as (k & <- & _); apply (rsum_ext RRing); intros c Hc; apply (rsum_ext RRing); intros b Hb; rewrite FL; auto; lia.
Qed.
End Results.
Print Assumptions C56_vn1.
Print Assumptions C56_redfield.
Print Assumptions C56_lindblad.
Print Assumptions C56_vn1_solution.
Print Assumptions C56_redfield_solution.
Print Assumptions C56_lindblad_solution.
Print Assumptions C56_pauli.

(** ** Example: two levels with equal energies; the two one-electron states are replaced by
    (3 |1> + 4i |2>)/5 and (4i |1> + 3 |2>)/5 *)
Local Open Scope R_scope.
Definition bx_U : Op RRing := fun s t =>
  if (Nat.eqb s t) then (if Nat.eqb s 1 || Nat.eqb s 2 then @mkC RRing (3/5) 0 else r1)%bool
  else if ((Nat.eqb s 1 && Nat.eqb t 2) || (Nat.eqb s 2 && Nat.eqb t 1))%bool then @mkC RRing 0 (4/5) else r0.
Definition bx_E (b : nat) : R := match b with 1%nat | 2%nat => 1 | 3%nat => 5 | _ => 0 end.
Lemma bx_in : forall s, In s (cons_states ex_L) -> s = 0%nat \/ s = 1%nat \/ s = 2%nat \/ s = 3%nat.
Proof. intros s H. vm_compute in H. intuition. Qed.
Lemma bx_unitary : unitary RRing (cons_states ex_L) bx_U.
Proof.
  change (cons_states ex_L) with [0; 1; 2; 3]%nat.
  split; intros s t Hs Ht; apply bx_in in Hs, Ht;
    repeat (destruct Hs as [-> |Hs]); repeat (destruct Ht as [-> |Ht]); subst;
    apply cplx_eq; cbv -[Rplus Rmult Ropp Rminus Rdiv R0 R1 IZR Rinv]; match goal with |- @eq _ ?u ?v => change (@eq R u v) end; field_simplify; lra.
Qed.
Lemma bx_levels : mixes_equal RRing (cons_states ex_L) (charge_of ex_si) bx_E bx_U.
Proof.
  intros s t Hs Ht; apply bx_in in Hs, Ht;
    repeat (destruct Hs as [-> |Hs]); repeat (destruct Ht as [-> |Ht]); subst; vm_compute; auto.
Qed.
Lemma bx_keeps : keeps RRing ex_si ex_L bx_U.
Proof.
  intros s t u v Hs Ht Hu Hv. apply bx_in in Hs, Ht, Hu, Hv.
  repeat (destruct Hs as [-> |Hs]); repeat (destruct Ht as [-> |Ht]); subst; repeat (destruct Hu as [-> |Hu]); subst;
   try (left; reflexivity); repeat (destruct Hv as [-> |Hv]); subst; try (right; left; reflexivity); right; right; vm_compute; reflexivity.
Qed.
(** lead 0 couples to |1>, lead 1 to |2>, both with amplitude 1 *)
Definition bx_T (l a b : nat) : Cr :=
  match l, a, b with
  | 0, 0, 1 | 0, 1, 0 | 0, 2, 3 | 0, 3, 2 | 1, 0, 2 | 1, 2, 0 => r1
  | 1, 1, 3 | 1, 3, 1 => ropp r1
  | _, _, _ => r0 end%nat.
Definition bx_T' (l : nat) : Op RRing := rot RRing (cons_states ex_L) bx_U (bx_T l).
Lemma bx_herm : hermitian RRing bx_T.
Proof.
  intros l a b. destruct l as [|[|l]], a as [|[|[|[|a]]]], b as [|[|[|[|b]]]]; apply cplx_eq; simpl; match goal with |- @eq _ ?u ?v => change (@eq R u v) end; lra.
Qed.
Lemma bx_herm' : hermitian RRing bx_T'.
Proof. intros l a b. apply rot_herm. intros s t. apply bx_herm. Qed.
Lemma bx_rot : forall l, (l < 2)%nat -> same RRing (cons_states ex_L) (bx_T' l) (rot RRing (cons_states ex_L) bx_U (bx_T l)).
Proof. intros l _ s t _ _. unfold bx_T'. reflexivity. Qed.
Example C56_case : forall mu tl dm dp it quad dg phi, exists phi', related RRing ex_si ex_L bx_U phi phi' /\
  (forall l, (l < 2)%nat -> vn1_current RRing ex_L phi' bx_T' (vn1_fct ex_L 2 bx_E mu tl dm dp it quad dg) l =
     vn1_current RRing ex_L phi bx_T (vn1_fct ex_L 2 bx_E mu tl dm dp it quad dg) l) /\
  bx_T' 0%nat 0%nat 1%nat = @mkC RRing (3/5) 0 /\ bx_T' 0%nat 0%nat 2%nat = @mkC RRing 0 (-4/5) /\ bx_T' 1%nat 0%nat 1%nat = @mkC RRing 0 (-4/5).
Proof.
  intros mu tl dm dp it quad dg phi.
  destruct (related_exists RRing 2 "charge" ex_si ex_L (Nat.lt_0_succ 1) ltac:(discriminate) ex_system bx_U (1/2) half_R1 bx_keeps phi) as (phi' & R0_).
  exists phi'. split; auto. split; [|split; [|split]].
  2-4: apply cplx_eq; cbv -[Rplus Rmult Ropp Rminus Rdiv R0 R1 IZR Rinv]; match goal with |- @eq _ ?u ?v => change (@eq R u v) end; field_simplify; lra.
  intros l Hl. destruct (C56_vn1 2 "charge" ex_si ex_L (Nat.lt_0_succ 1) ltac:(discriminate) ex_system 2 bx_E mu tl dm dp it quad dg bx_U bx_T bx_T'
     bx_unitary bx_levels bx_keeps bx_herm bx_herm' bx_rot phi phi' R0_) as (_ & _ & X). exact (proj1 (X l Hl)).
Qed.

(** ** The Pauli approach depends on the choice of degenerate eigenvectors: lead 0 couples to |1> and lead 1 to |2>, and
    no current flows; with the eigenvectors of the example above the same bias drives one *)
Definition by_mu (l : nat) : R := match l with 0%nat => 1 | _ => 0 end.
Definition by_E (b : nat) : R := match b with 1%nat | 2%nat => 1 | _ => 0 end.
Definition by_T (l a b : nat) : Cr :=
  match l, a, b with 0, 0, 1 | 0, 1, 0 | 1, 0, 2 | 1, 2, 0 => r1 | _, _, _ => r0 end%nat.
Definition by_T' (l : nat) : Op RRing := rot RRing (cons_states ex_L) bx_U (by_T l).
Local Notation by_pf T := (pauli_fct ex_L 2 T by_E by_mu (fun _ => 1) (fun _ => -10) (fun _ => 10) 1).
Lemma by_val : forall T l c b q s k, (0 <= q)%Z -> In c (states ex_L (q + 1)) -> In b (states ex_L q) -> (l < 2)%nat -> ind1 ex_L c b q = k ->
  by_pf T l k s = (re (rmul (T l b c) (T l c b)) * (if s then snd else fst) (fpauli by_mu (fun _ => 1) (fun _ => -10) (fun _ => 10) 1 l (by_E c - by_E b)))%R.
Proof.
  intros T l c b q s k Hq Hc Hb Hl <-.
  apply (pauli_fct_val ex_L (system_layout 2 "charge" ex_si ex_L (Nat.lt_0_succ 1) ltac:(discriminate) ex_system)); auto.
Qed.
Lemma by_fermi : exists f, 0 < f < 1/2 /\ forall s, fpauli by_mu (fun _ => 1) (fun _ => -10) (fun _ => 10) 1 0%nat 1 = (2 * PI * (1/2), 2 * PI * (1/2)) /\
  (if s : bool then snd else fst) (fpauli by_mu (fun _ => 1) (fun _ => -10) (fun _ => 10) 1 1%nat 1) = if s then 2 * PI * (1 - f) else 2 * PI * f.
Proof.
  exists (fermi 1). split.
  - split; [apply fermi_range|]. unfold fermi. pose proof (exp_ineq1 1 ltac:(lra)) as H.
    apply Rmult_lt_reg_r with (1 + exp 1); [lra|]. field_simplify; lra.
  - intros s. unfold fpauli, func_pauli. simpl. replace ((1 - 1) / 1) with 0 by field. replace ((1 - 0) / 1) with 1 by field.
    unfold cut in *. rewrite !fermi_below by (unfold cut; lra). unfold fermi at 1 2. rewrite exp_0. split.
    + f_equal; field.
    + destruct s; reflexivity.
Qed.
Theorem C56_pauli_refuted :
  (forall l s t, In s (cons_states ex_L) -> In t (cons_states ex_L) -> by_T' l s t = rot RRing (cons_states ex_L) bx_U (by_T l) s t) /\
  unitary RRing (cons_states ex_L) bx_U /\ mixes_equal RRing (cons_states ex_L) (charge_of ex_si) by_E bx_U /\
  (forall phi, (forall k, (0 <= k < 4)%Z -> act RRing 4 (kern_of RRing ex_L (pauli_calls RRing ex_L 2 (by_pf by_T))) phi k = 0%R) ->
     pauli_current RRing ex_L phi (by_pf by_T) 0%nat = 0%R) /\
  exists phi, (forall k, (0 <= k < 4)%Z -> act RRing 4 (kern_of RRing ex_L (pauli_calls RRing ex_L 2 (by_pf by_T'))) phi k = 0%R) /\
     phi0_norm RRing ex_L phi = 1%R /\ 0 < pauli_current RRing ex_L phi (by_pf by_T') 0%nat.
Proof.
  destruct by_fermi as (f & Hf & V).
  assert (TV : forall (T : nat -> nat -> nat -> Cr) l c b q (s : bool) k (v : R), (0 <= q)%Z -> In c (states ex_L (q + 1)) -> In b (states ex_L q) -> (l < 2)%nat -> ind1 ex_L c b q = k ->
    re (rmul (T l b c) (T l c b) : Cr) = v -> by_E c - by_E b = 1 \/ v = 0 ->
    by_pf T l k s = v * match l with 0%nat => 2 * PI * (1/2) | _ => if s then 2 * PI * (1 - f) else 2 * PI * f end).
  { intros T l c b q s k v H1 H2 H3 H4 H5 H6 H7. rewrite (by_val T l c b q s k H1 H2 H3 H4 H5), H6. destruct H7 as [-> | ->]; [|ring]. f_equal.
    destruct l as [|[|l]]; [|destruct (V s) as (_ & ->); reflexivity|lia]. destruct (V s) as (-> & _). destruct s; reflexivity. }
  repeat match goal with |- _ /\ _ => split end.
  - reflexivity.
  - apply bx_unitary.
  - intros s t Hs Ht; apply bx_in in Hs, Ht;
      repeat (destruct Hs as [-> |Hs]); repeat (destruct Ht as [-> |Ht]); subst; vm_compute; auto.
  - intros phi H. specialize (H 1%Z ltac:(lia)). revert H.
    set (p := by_pf by_T).
    assert (P : forall l s, (l < 2)%nat -> p l 0%nat s = (if l then 1 else 0) * match l with 0%nat => 2 * PI * (1/2) | _ => if s then 2 * PI * (1 - f) else 2 * PI * f end /\
      p l 1%nat s = (if l then 0 else 1) * match l with 0%nat => 2 * PI * (1/2) | _ => if s then 2 * PI * (1 - f) else 2 * PI * f end /\
      p l 2%nat s = 0 /\ p l 3%nat s = 0).
    { intros l s Hl. repeat split.
      - apply (TV by_T l 1 0 0%Z)%nat; [lia|vm_compute; tauto|vm_compute; tauto|exact Hl|reflexivity| |left; simpl; lra].
        destruct l as [|[|l]]; [| |lia]; simpl; match goal with |- @eq _ ?u ?v => change (@eq R u v) end; lra.
      - apply (TV by_T l 2 0 0%Z)%nat; [lia|vm_compute; tauto|vm_compute; tauto|exact Hl|reflexivity| |left; simpl; lra].
        destruct l as [|[|l]]; [| |lia]; simpl; match goal with |- @eq _ ?u ?v => change (@eq R u v) end; lra.
      - unfold p. rewrite (TV by_T l 3%nat 1%nat 1%Z s 2%nat 0); [ring|lia|vm_compute; tauto|vm_compute; tauto|exact Hl|reflexivity| |right; reflexivity].
        destruct l as [|[|l]]; [| |lia]; simpl; match goal with |- @eq _ ?u ?v => change (@eq R u v) end; lra.
      - unfold p. rewrite (TV by_T l 3%nat 2%nat 1%Z s 3%nat 0); [ring|lia|vm_compute; tauto|vm_compute; tauto|exact Hl|reflexivity| |right; reflexivity].
        destruct l as [|[|l]]; [| |lia]; simpl; match goal with |- @eq _ ?u ?v => change (@eq R u v) end; lra. }
    clearbody p. cbv -[Rplus Rmult Ropp Rminus Rdiv R0 R1 IZR Rinv PI].
    destruct (P 0%nat false) as (-> & -> & -> & ->); auto. destruct (P 0%nat true) as (-> & -> & -> & ->); auto.
    destruct (P 1%nat false) as (-> & _ & -> & _); auto. destruct (P 1%nat true) as (-> & _ & -> & _); auto. lra.
  - set (A1 := 9/25 * (1/2) + 16/25 * f). set (A2 := 16/25 * (1/2) + 9/25 * f). set (x := A1 / (1 - A1)). set (y := A2 / (1 - A2)). set (z := 1 / (1 + x + y)).
    assert (B1 : 0 < A1 < 1/2) by (unfold A1; lra). assert (B2 : 0 < A2 < 1/2) by (unfold A2; lra).
    assert (X : 0 < x < 1). { unfold x. split; [apply Rdiv_lt_0_compat; lra|]. apply Rmult_lt_reg_r with (1 - A1); [lra|]. field_simplify; lra. }
    assert (Y : 0 < y < 1). { unfold y. split; [apply Rdiv_lt_0_compat; lra|]. apply Rmult_lt_reg_r with (1 - A2); [lra|]. field_simplify; lra. }
    assert (EX : x * (1 - A1) = A1) by (unfold x; field; lra). assert (EY : y * (1 - A2) = A2) by (unfold y; field; lra).
    assert (HZ : 0 < z) by (unfold z; apply Rdiv_lt_0_compat; lra). assert (EZ : z * (1 + x + y) = 1) by (unfold z; field; lra).
    clearbody x y z. unfold A1, A2 in EX, EY. clear B1 B2 A1 A2.
    exists (fun k => match k with 0%Z => z | 1%Z => z * x | 2%Z => z * y | _ => 0 end).
    set (p := by_pf by_T').
    assert (P : forall l s, (l < 2)%nat -> p l 0%nat s = (if l then 9/25 else 16/25) * match l with 0%nat => 2 * PI * (1/2) | _ => if s then 2 * PI * (1 - f) else 2 * PI * f end /\
      p l 1%nat s = (if l then 16/25 else 9/25) * match l with 0%nat => 2 * PI * (1/2) | _ => if s then 2 * PI * (1 - f) else 2 * PI * f end /\
      p l 2%nat s = 0 /\ p l 3%nat s = 0).
    { intros l s Hl. unfold p.
      assert (W : forall c b q k (v : R), (0 <= q)%Z -> In c (states ex_L (q + 1)) -> In b (states ex_L q) -> ind1 ex_L c b q = k ->
        by_E c - by_E b = 1 \/ v = 0 -> (re (rmul (by_T' l b c) (by_T' l c b) : Cr) : R) = v ->
        by_pf by_T' l k s = v * match l with 0%nat => 2 * PI * (1/2) | _ => if s then 2 * PI * (1 - f) else 2 * PI * f end).
      { intros c b q k v H1 H2 H3 H4 H5 H6. now apply (TV by_T' l c b q). }
      repeat split.
      - apply (W 1 0 0%Z)%nat; [lia|vm_compute; tauto|vm_compute; tauto|reflexivity|left; simpl; lra|].
        destruct l as [|[|l]]; [| |lia]; cbv -[Rplus Rmult Ropp Rminus Rdiv R0 R1 IZR Rinv]; match goal with |- @eq _ ?u ?v => change (@eq R u v) end; field_simplify; lra.
      - apply (W 2 0 0%Z)%nat; [lia|vm_compute; tauto|vm_compute; tauto|reflexivity|left; simpl; lra|].
        destruct l as [|[|l]]; [| |lia]; cbv -[Rplus Rmult Ropp Rminus Rdiv R0 R1 IZR Rinv]; match goal with |- @eq _ ?u ?v => change (@eq R u v) end; field_simplify; lra.
      - rewrite (W 3%nat 1%nat 1%Z 2%nat 0); [ring|lia|vm_compute; tauto|vm_compute; tauto|reflexivity|right; reflexivity|].
        destruct l as [|[|l]]; [| |lia]; cbv -[Rplus Rmult Ropp Rminus Rdiv R0 R1 IZR Rinv]; match goal with |- @eq _ ?u ?v => change (@eq R u v) end; field_simplify; lra.
      - rewrite (W 3%nat 2%nat 1%Z 3%nat 0); [ring|lia|vm_compute; tauto|vm_compute; tauto|reflexivity|right; reflexivity|].
        destruct l as [|[|l]]; [| |lia]; cbv -[Rplus Rmult Ropp Rminus Rdiv R0 R1 IZR Rinv]; match goal with |- @eq _ ?u ?v => change (@eq R u v) end; field_simplify; lra. }
    clearbody p. pose proof PI_RGT_0 as PP.
    repeat match goal with |- _ /\ _ => split end.
    + intros k Hk. assert (K4 : (k = 0 \/ k = 1 \/ k = 2 \/ k = 3)%Z) by lia.
      destruct (P 0%nat false) as (a1 & a2 & a3 & a4); auto. destruct (P 0%nat true) as (b1 & b2 & b3 & b4); auto.
      destruct (P 1%nat false) as (c1 & c2 & c3 & c4); auto. destruct (P 1%nat true) as (d1 & d2 & d3 & d4); auto. cbv iota in *.
      destruct K4 as [-> |[-> |[-> | ->]]]; cbv -[Rplus Rmult Ropp Rminus Rdiv R0 R1 IZR Rinv PI];
        rewrite ?a1, ?a2, ?a3, ?a4, ?b1, ?b2, ?b3, ?b4, ?c1, ?c2, ?c3, ?c4, ?d1, ?d2, ?d3, ?d4; match goal with |- @eq _ ?u ?v => change (@eq R u v) end.
      * transitivity (2 * PI * z * ((x * (1 - (9 / 25 * (1 / 2) + 16 / 25 * f)) - (9 / 25 * (1 / 2) + 16 / 25 * f)) + (y * (1 - (16 / 25 * (1 / 2) + 9 / 25 * f)) - (16 / 25 * (1 / 2) + 9 / 25 * f)))); [field|rewrite EX, EY; ring].
      * transitivity (2 * PI * z * ((9 / 25 * (1 / 2) + 16 / 25 * f) - x * (1 - (9 / 25 * (1 / 2) + 16 / 25 * f)))); [field|rewrite EX; ring].
      * transitivity (2 * PI * z * ((16 / 25 * (1 / 2) + 9 / 25 * f) - y * (1 - (16 / 25 * (1 / 2) + 9 / 25 * f)))); [field|rewrite EY; ring].
      * ring.
    + cbv -[Rplus Rmult Ropp Rminus Rdiv R0 R1 IZR Rinv PI]. lra.
    + destruct (P 0%nat false) as (a1 & a2 & a3 & a4); auto. destruct (P 0%nat true) as (b1 & b2 & b3 & b4); auto. cbv iota in *.
      cbv -[Rplus Rmult Ropp Rminus Rdiv R0 R1 IZR Rinv PI Rlt]. rewrite a1, a2, a3, a4, b1, b2, b3, b4.
      match goal with |- 0 < ?u => replace u with (PI * z * (9/25 * (1 - x) + 16/25 * (1 - y))) by field end.
      apply Rmult_lt_0_compat; [apply Rmult_lt_0_compat; auto|lra].
Qed.
Print Assumptions C56_pauli_refuted.
