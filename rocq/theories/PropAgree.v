(** Property C51: without coherences the four first-order approaches agree. *)
From Coq Require Import String List Arith Lia ZArith Bool Permutation Ring Reals Lra.
From Verif Require Import Base Bits Indexing IndexingProofs RemoveProofs Binom SsqProofs Qn
  PropIndexing DMIndex DMIndexProofs DMReach PropDMIndex CRing SpecFunc Layout Coherences Kernel KernelProofs
  PauliProofs CohProofs CohKernels CohCurrents PropKernel MasterEq PropMaster Rates PropRates.
Import ListNotations.
Open Scope nat_scope.
Local Notation length := List.length.
Local Notation Cr := (Cx RRing).

(** ** Model: the energy currents of 1vN (base/neumann1.py 130-180) and Redfield (base/redfield.py 94-133) are the same
    sums as the currents, with phi1fct_energy in place of phi1fct *)
Definition vn1_energy_current (L : Lay) (phi : Z -> R) T (Fe : nat -> nat -> bool -> Cr) (l : nat) : R := vn1_current RRing L phi T Fe l.
Definition red_energy_current (L : Lay) (phi : Z -> R) T (Fe : nat -> nat -> bool -> Cr) (l : nat) : R := red_current RRing L phi T Fe l.

(** ** The diagonal of the master equations for a diagonal density matrix *)
Section Diag.
Open Scope R_scope.
Variables (SS : list nat) (ND : NoDup SS) (N : nat -> nat) (T : nat -> nat -> Cr) (r : nat -> nat -> Cr) (p : nat -> R).
Hypothesis HT : forall a b, conj (T a b) = T b a.
Hypothesis RD : forall s, In s SS -> r s s = @ofR RRing (p s).
Hypothesis R0 : forall s t, In s SS -> In t SS -> s <> t -> r s t = r0.
Add Ring RrPA : (rth RRing).
Add Ring CrPA : (rth (Cx RRing)).
Local Notation om := (op_mul RRing SS).
Lemma conj_ofR : forall x : R, conj (@ofR RRing x) = @ofR RRing x.
Proof. intros. apply cplx_eq; rring. Qed.
Lemma mul_r : forall X s t, In t SS -> om X r s t = rmul (X s t) (@ofR RRing (p t)).
Proof.
  intros X s t Ht. unfold op_mul. rewrite (rsum_single (Cx RRing) _ _ SS t ND Ht).
  - now rewrite RD.
  - intros y Hy Hne. rewrite R0 by auto. ring.
Qed.
Lemma r_mul : forall X s t, In s SS -> om r X s t = rmul (@ofR RRing (p s)) (X s t).
Proof.
  intros X s t Hs. unfold op_mul. rewrite (rsum_single (Cx RRing) _ _ SS s ND Hs).
  - now rewrite RD.
  - intros y Hy Hne. rewrite R0 by auto. ring.
Qed.
(** change of the population of s: the transition t -> s has the rate R s t *)
Definition balance (W : nat -> nat -> R) (s : nat) : R := rsum (fun t => W s t * p t - W t s * p s : RRing) SS.
Variables (F0 F1 : nat -> nat -> Cr).
Definition xx (s t : nat) : R := re (rmul (T t s) (T s t)).
Definition rates (s t : nat) : R :=
  if (N s =? S (N t))%nat then xx s t * (-2 * im (F0 s t)) else if (N t =? S (N s))%nat then xx s t * (2 * im (F1 t s)) else 0.
Lemma comm_diag : forall Y s, In s SS ->
  (forall u, In u SS -> 2 * im (rmul (T s u) (Y u s)) = rates s u * p u - rates u s * p s) ->
  (forall u, In u SS -> Y s u = conj (Y u s)) ->
  re (rmul (ropp (Ci RRing)) (op_comm RRing SS T Y s s)) = balance rates s.
Proof.
  intros Y s Hs H HY. unfold op_comm, op_mul. rewrite <- (rsum_minus (Cx RRing)). rewrite <- (rsum_mul_l (Cx RRing)).
  rewrite rsum_re. unfold balance. apply rsum_ext. intros u Hu. rewrite <- H by auto. rewrite HY by auto. rewrite <- (HT s u).
  destruct (T s u) as [a b], (Y u s) as [c d].
  repeat (cbn [re im conj Ci]; rewrite ?re_mul, ?im_mul). 
  match goal with |- @eq _ ?u ?v => change (@eq R u v) end. simpl. ring.
Qed.
Definition phiY (u s : nat) : Cr :=
  if (N u =? S (N s))%nat then radd (rmul (F0 u s) (rmul (T u s) (@ofR RRing (p s)))) (rmul (F1 u s) (rmul (@ofR RRing (p u)) (T u s)))
  else if (S (N u) =? N s)%nat then conj (radd (rmul (F0 s u) (rmul (T s u) (@ofR RRing (p u)))) (rmul (F1 s u) (rmul (@ofR RRing (p s)) (T s u))))
  else r0.
Lemma phiY_rates : forall s u, 2 * im (rmul (T s u) (phiY u s)) = rates s u * p u - rates u s * p s.
Proof.
  intros s u. unfold phiY, rates, xx. rewrite <- (HT s u).
  destruct (Nat.eqb_spec (N u) (S (N s))); [|destruct (Nat.eqb_spec (S (N u)) (N s))].
  - destruct (Nat.eqb_spec (N s) (S (N u))); [lia|].
    destruct (T s u) as [a b], (F0 u s) as [f0 g0], (F1 u s) as [f1 g1]. simpl. ring.
  - destruct (Nat.eqb_spec (N s) (S (N u))); [|lia].
    destruct (T s u) as [a b], (F0 s u) as [f0 g0], (F1 s u) as [f1 g1]. simpl. ring.
  - destruct (Nat.eqb_spec (N s) (S (N u))); [lia|]. destruct (T s u) as [a b]. simpl. ring.
Qed.
Lemma phiY_herm : forall s u, phiY s u = conj (phiY u s).
Proof.
  intros s u. unfold phiY. rewrite (Nat.eqb_sym (S (N s))), (Nat.eqb_sym (S (N u))).
  destruct (Nat.eqb_spec (N u) (S (N s))), (Nat.eqb_spec (N s) (S (N u))); try lia; rewrite ?conj_conj, ?conj_0; auto.
Qed.
Lemma vn1_diag : forall (Tf F0f F1f : nat -> nat -> nat -> Cr) l s, Tf l = T -> F0f l = F0 -> F1f l = F1 -> In s SS ->
  re (vn1_lead RRing SS N Tf F0f F1f r l s s) = balance rates s.
Proof.
  intros Tf F0f F1f l s ET E0 E1 Hs. unfold vn1_lead. rewrite ET.
  assert (X : forall u t, In u SS -> In t SS -> op_add RRing (vn1_phi RRing SS N Tf F0f F1f r l) (op_adj RRing (vn1_phi RRing SS N Tf F0f F1f r l)) u t = phiY u t).
  { intros u t Hu Ht. unfold op_add at 1, op_adj, vn1_phi, op_up, op_add, op_had. rewrite ET, E0, E1.
    rewrite !mul_r, !r_mul by auto. unfold phiY. rewrite (Nat.eqb_sym (S (N u))).
    destruct (Nat.eqb_spec (N u) (S (N t))), (Nat.eqb_spec (N t) (S (N u))); try lia; rewrite ?conj_0; ring. }
  apply comm_diag; auto.
  - intros u Hu. rewrite X by auto. apply phiY_rates.
  - intros u Hu. rewrite !X by auto. apply phiY_herm.
Qed.
Lemma red_diag : forall (Tf F0f F1f : nat -> nat -> nat -> Cr) l s, Tf l = T -> F0f l = F0 -> F1f l = F1 -> In s SS ->
  re (red_lead RRing SS N Tf F0f F1f r l s s) = balance rates s.
Proof.
  intros Tf F0f F1f l s ET E0 E1 Hs. unfold red_lead. rewrite ET.
  assert (X : forall u t, In u SS -> In t SS -> (op_add RRing (op_mul RRing SS (red_D RRing N Tf F0f F1f l) r) (op_mul RRing SS r (op_adj RRing (red_D RRing N Tf F0f F1f l)))) u t = phiY u t).
  { intros u t Hu Ht. unfold op_add at 1. rewrite mul_r, r_mul by auto. unfold op_adj at 1, red_D, op_add, op_adj, op_up, op_had.
    rewrite ET, E0, E1. unfold phiY. rewrite (Nat.eqb_sym (S (N u))).
    destruct (Nat.eqb_spec (N u) (S (N t))), (Nat.eqb_spec (N t) (S (N u))); try lia;
      rewrite ?conj_add, ?conj_mul, ?conj_conj, ?conj_0, ?conj_ofR; ring. }
  apply comm_diag; auto.
  - intros u Hu. rewrite X by auto. apply phiY_rates.
  - intros u Hu. rewrite !X by auto. apply phiY_herm.
Qed.
(** Lindblad: g s t is the squared modulus of the amplitude of t -> s *)
Definition lrates (tL : nat -> nat -> Cr) (s t : nat) : R :=
  if ((N s =? S (N t)) || (N t =? S (N s)))%nat then re (rmul (tL s t) (conj (tL s t))) else 0.
Lemma lin_diag : forall (tLf : nat -> nat -> nat -> Cr) l s (h : R), h + h = 1 -> In s SS ->
  re (lindblad_lead RRing SS N h tLf r l s s) = balance (lrates (tLf l)) s.
Proof.
  intros tLf l s h Hh Hs. unfold lindblad_lead, op_add.
  assert (X : forall A : nat -> nat -> Cr, re (dissipator RRing SS h A r s s) =
     balance (fun s t => re (rmul (A s t) (conj (A s t)))) s).
  { intros A. unfold dissipator. rewrite mul_r, r_mul by auto.
    assert (E1 : op_mul RRing SS (op_mul RRing SS A r) (op_adj RRing A) s s = rsum (fun u => rmul (rmul (A s u) (@ofR RRing (p u))) (conj (A s u))) SS).
    { apply rsum_ext. intros u Hu. now rewrite mul_r. }
    assert (E2 : op_mul RRing SS (op_adj RRing A) A s s = rsum (fun u => rmul (conj (A u s)) (A u s)) SS) by reflexivity.
    rewrite E1, E2. unfold balance.
    assert (re (rsub (rsum (fun u => rmul (rmul (A s u) (@ofR RRing (p u))) (conj (A s u))) SS)
      (rmul (@ofR RRing h) (radd (rmul (rsum (fun u => rmul (conj (A u s)) (A u s)) SS) (@ofR RRing (p s)))
                                 (rmul (@ofR RRing (p s)) (rsum (fun u => rmul (conj (A u s)) (A u s)) SS))))) =
      re (rsum (fun u => rmul (rmul (A s u) (@ofR RRing (p u))) (conj (A s u))) SS) - (h + h) * (p s * re (rsum (fun u => rmul (conj (A u s)) (A u s)) SS))) as ->.
    { simpl. ring. }
    rewrite Hh, !rsum_re. rewrite Rmult_1_l.
    rewrite <- (rsum_mul_l RRing (nat) (fun x => re (rmul (conj (A x s)) (A x s))) (p s)).
    rewrite <- (rsum_minus RRing). apply rsum_ext. intros u Hu.
    destruct (A s u) as [a b], (A u s) as [c d]. rsimp. match goal with |- @eq _ ?u ?v => change (@eq R u v) end. simpl. ring. }
  rewrite re_add, !X. unfold balance. rewrite <- (rsum_plus RRing). apply rsum_ext. intros u Hu.
  unfold lrates, op_up, op_dn. rewrite (Nat.eqb_sym (S (N s))), (Nat.eqb_sym (S (N u))).
  destruct (Nat.eqb_spec (N s) (S (N u))), (Nat.eqb_spec (N u) (S (N s))); try lia; simpl orb; rewrite ?conj_0;
    rsimp; match goal with |- @eq _ ?u ?v => change (@eq R u v) end; simpl; ring.
Qed.
Lemma balance_ext : forall W W' s, In s SS -> (forall s t, In s SS -> In t SS -> W s t = W' s t) -> balance W s = balance W' s.
Proof. intros W W' s Hs H. unfold balance. apply (rsum_ext RRing). intros t Ht. now rewrite (H s t), (H t s). Qed.
Lemma balance_weighted : forall (w : nat -> R) W,
  rsum (fun s => w s * balance W s : RRing) SS = rsum (fun s => rsum (fun t => (w s - w t) * (W s t * p t) : RRing) SS) SS.
Proof.
  intros w W. unfold balance.
  assert (A : rsum (fun s => w s * rsum (fun t => W s t * p t - W t s * p s : RRing) SS : RRing) SS =
              rsum (fun s => rsum (fun t => w s * (W s t * p t) : RRing) SS) SS - rsum (fun s => rsum (fun t => w s * (W t s * p s) : RRing) SS) SS).
  { rewrite <- (rsum_minus RRing). apply rsum_ext. intros s _. rewrite <- (rsum_minus RRing).
    rewrite <- (rsum_mul_l RRing _ (fun t => W s t * p t - W t s * p s : RRing) (w s)). apply rsum_ext. intros t _. rring. }
  rewrite A. rewrite (rsum_swap RRing _ _ (fun s t => w s * (W t s * p s) : RRing)).
  rewrite <- (rsum_minus RRing). apply rsum_ext. intros s _. rewrite <- (rsum_minus RRing). apply rsum_ext. intros t _. rring.
Qed.
End Diag.

Section Props.
Variables (n : nat) (name : string) (si : SI) (L : Lay).
Hypotheses (Hn : (1 <= n)%nat) (Hix : ix_of name n <> IxSsq) (SY : system n name si L).
Let LO : layout L := system_layout n name si L Hn Hix SY.
Let CH := system_charge n name si L Hn Hix SY.
Local Notation N := (charge_of si).
Local Notation SS := (cons_states L).
Local Notation dens := (dens RRing L N).
Local Notation act := (act RRing).
Add Ring RrPB : (rth RRing).
Add Ring CrPB : (rth (Cx RRing)).
Variables (nl : nat) (T : nat -> nat -> nat -> Cr) (E mu tl dm dp : nat -> R) (it : nat).
Variables (quad : R -> R -> R -> R) (dg : R -> R).
Hypotheses (HT : hermitian RRing T) (Hit : (it <= 3)%nat).
Open Scope R_scope.
Local Notation h := (1/2).
Local Notation pf := (pauli_fct L nl T E mu tl dm dp it).
Local Notation tL := (lindblad_fct L nl T E mu tl dm dp it).
Local Notation Fv := (vn1_fct L nl E mu tl dm dp it quad dg).
Local Notation Fe := (vn1_fct_energy L nl E mu tl dm dp it quad dg).
Local Notation golden := (golden si T E mu tl dm dp it).
Local Notation kern_p := (kern_of RRing L (pauli_calls RRing L nl pf)).
Local Notation kern_l := (kern_of RRing L (lindblad_calls RRing L nl h tL E)).
Local Notation kern_v := (kern_of RRing L (vn1_calls RRing L nl T Fv E)).
Local Notation kern_r := (kern_of RRing L (red_calls RRing L nl T Fv E)).
Local Notation tab F q := (tab RRing L N F q).

(** the vector has no coherences *)
Definition populations_only (phi : Z -> R) : Prop := forall k, (Z.of_nat (ly_npauli L) <= k)%Z -> phi k = 0.

Lemma half_R : h + h = 1. Proof. lra. Qed.
Lemma dens_diag : forall phi s, In s SS -> dens phi s s = @ofR RRing (re (dens phi s s)).
Proof.
  intros phi s Hs. apply (cons_block_of L N CH) in Hs. rewrite (dens_at RRing L N CH phi s s (Z.of_nat (N s))) by (auto; lia).
  now rewrite (rho_diag_real RRing L LO) by (auto; lia).
Qed.
Lemma dens_off : forall phi s t, populations_only phi -> In s SS -> In t SS -> s <> t -> dens phi s t = r0.
Proof.
  intros phi s t PO Hs Ht Hne. unfold MasterEq.dens. destruct (Nat.eqb_spec (N s) (N t)) as [e|]; [|reflexivity].
  apply (cons_block_of L N CH) in Hs. apply (cons_block_of L N CH) in Ht. rewrite <- e in Ht. unfold rho.
  destruct (Z.eqb_spec (ind0 L s t (Z.of_nat (N s))) (-1)) as [|NE]; [reflexivity|].
  destruct (lo_off L LO s t (Z.of_nat (N s)) ltac:(lia) Hs Ht Hne) as (_ & X). destruct (X NE) as (R & _).
  assert (A : phi (ind0 L s t (Z.of_nat (N s))) = 0) by (apply PO; lia).
  assert (B : phi (imag_ind L (ind0 L s t (Z.of_nat (N s)))) = 0) by (apply PO; unfold imag_ind, ndm0Z, npauliZ; lia).
  apply cplx_eq.
  - cbn [re]. exact A.
  - cbn [im]. destruct (has_imag _ _); [|reflexivity]. destruct (cnj _ _ _ _); rewrite B; simpl; rring.
Qed.

Lemma up_block : forall s t, In s SS -> In t SS -> N s = S (N t) ->
  In s (states L (Z.of_nat (N t) + 1)) /\ In t (states L (Z.of_nat (N t))).
Proof.
  intros s t Hs Ht e. apply (cons_block_of L N CH) in Hs. apply (cons_block_of L N CH) in Ht.
  split; auto. now replace (Z.of_nat (N t) + 1)%Z with (Z.of_nat (N s)) by lia.
Qed.
Lemma fvn1_im : forall l e, -2 * im (pick false (fvn1 mu tl dm dp it quad dg l e)) = fst (fpauli mu tl dm dp it l e) /\
  2 * im (pick true (fvn1 mu tl dm dp it quad dg l e)) = snd (fpauli mu tl dm dp it l e) /\
  -2 * im (pick_e false (fvn1 mu tl dm dp it quad dg l e)) = e * fst (fpauli mu tl dm dp it l e) /\
  2 * im (pick_e true (fvn1 mu tl dm dp it quad dg l e)) = e * snd (fpauli mu tl dm dp it l e).
Proof.
  intros l e. unfold fvn1, fpauli. pose proof (func_1vN_im quad dg e (mu l) (tl l) (dm l) (dp l) it Hit) as X.
  destruct (func_1vN _ _ _ _ _ _ _ _) as [[[c0 c1] e0] e1]. destruct X as (A & B & C & D). simpl pick. simpl pick_e.
  rewrite C, D, <- A, <- B. repeat split; ring.
Qed.
Lemma rates_golden : forall l s t, (l < nl)%nat -> In s SS -> In t SS ->
  rates N (T l) (tab Fv false l) (tab Fv true l) s t = golden l s t.
Proof.
  intros l s t Hl Hs Ht. unfold rates, PropRates.golden, MasterEq.tab, xx.
  destruct (Nat.eqb_spec (N s) (S (N t))) as [e|]; [|destruct (Nat.eqb_spec (N t) (S (N s))) as [e|]; auto].
  - destruct (up_block s t Hs Ht e) as (A & B). rewrite (vn1_fct_val L LO) by (auto; lia). f_equal. apply fvn1_im.
  - destruct (up_block t s Ht Hs e) as (A & B). rewrite (vn1_fct_val L LO) by (auto; lia). f_equal. apply fvn1_im.
Qed.
Definition gap (s t : nat) : R := if (N s =? S (N t))%nat then E s - E t else E t - E s.
Lemma rates_energy : forall l s t, (l < nl)%nat -> In s SS -> In t SS ->
  rates N (T l) (tab Fe false l) (tab Fe true l) s t = gap s t * golden l s t.
Proof.
  intros l s t Hl Hs Ht. unfold rates, PropRates.golden, MasterEq.tab, xx, gap.
  destruct (Nat.eqb_spec (N s) (S (N t))) as [e|]; [|destruct (Nat.eqb_spec (N t) (S (N s))) as [e|]; [|ring]].
  - destruct (up_block s t Hs Ht e) as (A & B). rewrite (vn1_fct_energy_val L LO) by (auto; lia).
    destruct (fvn1_im l (E s - E t)) as (_ & _ & X & _). rewrite X. unfold x_of. ring.
  - destruct (up_block t s Ht Hs e) as (A & B). rewrite (vn1_fct_energy_val L LO) by (auto; lia).
    destruct (fvn1_im l (E t - E s)) as (_ & _ & _ & X). rewrite X. unfold x_of. ring.
Qed.
Lemma lrates_golden : forall l s t, (l < nl)%nat -> In s SS -> In t SS -> lrates N (tL l) s t = golden l s t.
Proof.
  intros l s t Hl Hs Ht. unfold lrates, PropRates.golden.
  assert (SQ : forall (f : R) (z : Cr), 0 <= f -> re (rmul (rmul (@ofR RRing (sqrt f)) z) (conj (rmul (@ofR RRing (sqrt f)) z))) = re (rmul (conj z) z) * f).
  { intros f z Hf. rewrite <- (sqrt_sqrt f Hf) at 3. destruct z as [a b]. simpl. ring. }
  destruct (Nat.eqb_spec (N s) (S (N t))) as [e|]; [|destruct (Nat.eqb_spec (N t) (S (N s))) as [e|]; auto]; simpl orb; cbv iota.
  - destruct (up_block s t Hs Ht e) as (A & B).
    destruct (lindblad_fct_val L LO nl T E mu tl dm dp it l s t (Z.of_nat (N t)) ltac:(lia) A B Hl) as (X & _). rewrite X.
    rewrite SQ by apply fp_nonneg. unfold x_of. now rewrite (HT l s t).
  - destruct (up_block t s Ht Hs e) as (A & B).
    destruct (lindblad_fct_val L LO nl T E mu tl dm dp it l t s (Z.of_nat (N s)) ltac:(lia) A B Hl) as (_ & X). rewrite X.
    rewrite SQ by apply fp_nonneg. unfold x_of. now rewrite (HT l s t).
Qed.

(** what lead l does to the population of s *)
Definition flow (phi : Z -> R) (l s : nat) : R := balance SS (fun s => re (dens phi s s)) (golden l) s.
Section Vector.
Variable phi : Z -> R.
Hypothesis PO : populations_only phi.
Lemma lead_lin : forall l s, (l < nl)%nat -> In s SS -> re (lindblad_lead RRing SS N h tL (dens phi) l s s) = flow phi l s.
Proof.
  intros l s Hl Hs. rewrite (lin_diag SS (cons_nodup n name si L Hn Hix SY) N (dens phi) (fun s => re (dens phi s s))); auto.
  - apply balance_ext; auto. intros. now apply lrates_golden.
  - intros. now apply dens_diag.
  - intros. now apply dens_off.
  - apply half_R.
Qed.
Lemma lead_vn1 : forall l s, (l < nl)%nat -> In s SS -> re (vn1_lead RRing SS N T (tab Fv false) (tab Fv true) (dens phi) l s s) = flow phi l s.
Proof.
  intros l s Hl Hs.
  rewrite (vn1_diag SS (cons_nodup n name si L Hn Hix SY) N (T l) (dens phi) (fun s => re (dens phi s s))
     (fun a b => HT l a b) (fun s => dens_diag phi s) (fun s t => dens_off phi s t PO) (tab Fv false l) (tab Fv true l)); auto.
  apply balance_ext; auto. intros. now apply rates_golden.
Qed.
Lemma lead_red : forall l s, (l < nl)%nat -> In s SS -> re (red_lead RRing SS N T (tab Fv false) (tab Fv true) (dens phi) l s s) = flow phi l s.
Proof.
  intros l s Hl Hs.
  rewrite (red_diag SS (cons_nodup n name si L Hn Hix SY) N (T l) (dens phi) (fun s => re (dens phi s s))
     (fun a b => HT l a b) (fun s => dens_diag phi s) (fun s t => dens_off phi s t PO) (tab Fv false l) (tab Fv true l)); auto.
  apply balance_ext; auto. intros. now apply rates_golden.
Qed.
Lemma row_of : forall psi lead b c, (0 <= c)%Z -> In b (states L c) ->
  rho RRing L psi b b c = master RRing SS E nl lead (dens phi) b b ->
  psi (ind0 L b b c) = rsum (fun l => re (lead (dens phi) l b b)) (leads nl).
Proof.
  intros psi lead b c Hc Hb H. rewrite (rho_diag_real RRing L LO) in H by auto.
  apply (f_equal (@re RRing)) in H. cbn [re ofR] in H. rewrite H. unfold master.
  rewrite (comm_energy RRing L LO N CH phi E b b c) by auto. rewrite re_add, rsum_re.
  rewrite (rho_diag_real RRing L LO) by auto.
  assert (re (rmul (ropp (Ci RRing)) (rmul (@ofR RRing (@rsub RRing (E b) (E b))) (@ofR RRing (phi (ind0 L b b c))))) = 0) as ->.
  { simpl. ring. }
  rring.
Qed.
(** the rate of change of every population is the same in all four approaches *)
Theorem C51_populations : forall b c, (0 <= c)%Z -> In b (states L c) ->
  let dp := act (ly_npauli L) kern_p phi (ind0 L b b c) in
  act (ly_ndm0r L) kern_l phi (ind0 L b b c) = dp /\ act (ly_ndm0r L) kern_v phi (ind0 L b b c) = dp /\
  act (ly_ndm0r L) kern_r phi (ind0 L b b c) = dp.
Proof.
  intros b c Hc Hb dp0. assert (Hb' : In b SS) by (apply (cons_in L LO c); auto).
  destruct (lo_diag L LO b c Hc Hb) as (RB & _).
  assert (EL : el L b b c) by (repeat split; auto; lia).
  assert (D : dp0 = rsum (fun l => flow phi l b : RRing) (leads nl)).
  { unfold dp0. rewrite (pauli_golden n name si L Hn Hix SY) by auto. apply (rsum_ext RRing). intros l _. reflexivity. }
  rewrite D. repeat split.
  - rewrite (row_of _ _ b c Hc Hb (C46_lindblad RRing n name si L Hn Hix SY nl h tL E phi b b c half_R EL)).
    apply rsum_ext. intros l Hl. apply in_seq in Hl. apply lead_lin; auto. lia.
  - rewrite (row_of _ _ b c Hc Hb (C46_vn1 RRing n name si L Hn Hix SY nl h T Fv E phi b b c half_R HT EL)).
    apply rsum_ext. intros l Hl. apply in_seq in Hl. apply lead_vn1; auto. lia.
  - rewrite (row_of _ _ b c Hc Hb (C46_redfield RRing n name si L Hn Hix SY nl h T Fv E phi b b c half_R HT EL)).
    apply rsum_ext. intros l Hl. apply in_seq in Hl. apply lead_red; auto. lia.
Qed.
Lemma pauli_flows : forall l, (l < nl)%nat ->
  pauli_current RRing L phi pf l = rsum (fun s => rnat RRing (N s) * flow phi l s : RRing) SS /\
  pauli_energy_current RRing L phi pf E l = rsum (fun s => E s * flow phi l s : RRing) SS.
Proof.
  intros l Hl. destruct (C47_pauli RRing n name si L Hn Hix SY pf phi E l) as (A & B). rewrite A, B.
  assert (X : forall s, In s SS -> rate_lead RRing SS N (fun l s t => pf l (ind1 L s t (Z.of_nat (N t))) false)
                             (fun l s t => pf l (ind1 L s t (Z.of_nat (N t))) true) (fun s => re (dens phi s s)) l s = flow phi l s).
  { intros s Hs. unfold rate_lead, flow, balance. apply (rsum_ext RRing). intros t Ht.
    rewrite !(code_golden n name si L Hn Hix SY) by auto. reflexivity. }
  split; apply (rsum_ext RRing); intros s Hs; now rewrite X.
Qed.
(** and so are the current and the energy current of every lead *)
Theorem C51_currents : forall l, (l < nl)%nat ->
  let I := pauli_current RRing L phi pf l in let J := pauli_energy_current RRing L phi pf E l in
  lindblad_current RRing L phi tL l = I /\ lindblad_energy_current RRing L phi h tL E l = J /\
  vn1_current RRing L phi T Fv l = I /\ vn1_energy_current L phi T Fe l = J /\
  red_current RRing L phi T Fv l = I /\ red_energy_current L phi T Fe l = J.
Proof.
  intros l Hl I J. destruct (pauli_flows l Hl) as (PI_ & PJ). unfold I, J. rewrite PI_, PJ.
  destruct (C47_lindblad RRing n name si L Hn Hix SY h tL E phi l half_R) as (LA & LB). rewrite LA, LB.
  rewrite (C47_vn1 RRing n name si L Hn Hix SY h T Fv phi l half_R HT).
  rewrite (C47_redfield RRing n name si L Hn Hix SY h T Fv phi l half_R HT).
  assert (EN : forall lead : nat -> nat -> Cr, (forall s, In s SS -> (re (lead s s) : R) = balance SS (fun s => re (dens phi s s)) (rates N (T l) (tab Fe false l) (tab Fe true l)) s) ->
     rsum (fun s => rmul (rnat RRing (N s)) (re (lead s s : Cr))) SS = rsum (fun s => E s * flow phi l s : RRing) SS).
  { intros lead H.
    transitivity (rsum (fun s => rnat RRing (N s) * balance SS (fun s => re (dens phi s s)) (rates N (T l) (tab Fe false l) (tab Fe true l)) s : RRing) SS).
    { apply (rsum_ext RRing). intros s Hs. now rewrite H. }
    unfold flow. rewrite !balance_weighted. apply (rsum_ext RRing). intros s Hs. apply (rsum_ext RRing). intros t Ht.
    rewrite rates_energy by auto. unfold gap, PropRates.golden.
    assert (RN : forall k, rnat RRing (S k) = rnat RRing k + 1) by (intros; simpl; rring).
    destruct (Nat.eqb_spec (N s) (S (N t))) as [e|]; [rewrite e, RN; rring|].
    destruct (Nat.eqb_spec (N t) (S (N s))) as [e|]; [rewrite e, RN; rring|rring]. }
  repeat split.
  - apply (rsum_ext RRing). intros s Hs. now rewrite lead_lin.
  - apply (rsum_ext RRing). intros s Hs. now rewrite lead_lin.
  - apply (rsum_ext RRing). intros s Hs. now rewrite lead_vn1.
  - unfold vn1_energy_current. rewrite (C47_vn1 RRing n name si L Hn Hix SY h T Fe phi l half_R HT). apply EN. intros s Hs.
    now apply (vn1_diag SS (cons_nodup n name si L Hn Hix SY) N (T l) (dens phi) (fun s => re (dens phi s s))
     (fun a b => HT l a b) (fun s => dens_diag phi s) (fun s t => dens_off phi s t PO) (tab Fe false l) (tab Fe true l)).
  - apply (rsum_ext RRing). intros s Hs. now rewrite lead_red.
  - unfold red_energy_current. rewrite (C47_redfield RRing n name si L Hn Hix SY h T Fe phi l half_R HT). apply EN. intros s Hs.
    now apply (red_diag SS (cons_nodup n name si L Hn Hix SY) N (T l) (dens phi) (fun s => re (dens phi s s))
     (fun a b => HT l a b) (fun s => dens_diag phi s) (fun s t => dens_off phi s t PO) (tab Fe false l) (tab Fe true l)).
Qed.
End Vector.
(** the population block of the matrices *)
Theorem C51_entries : forall i j, (i < ly_npauli L)%nat -> (j < ly_npauli L)%nat ->
  let k := kern_p (Z.of_nat i, Z.of_nat j) in
  kern_l (Z.of_nat i, Z.of_nat j) = k /\ kern_v (Z.of_nat i, Z.of_nat j) = k /\ kern_r (Z.of_nat i, Z.of_nat j) = k.
Proof.
  intros i j Hi Hj k. destruct (lo_surj L LO i Hi) as (b & c & Hc & Hb & Eb).
  pose proof (lo_le L LO). pose proof (lo_size L LO).
  assert (PO : populations_only (unit_vec RRing (Z.of_nat j))).
  { intros q Hq. unfold unit_vec. destruct (Z.eq_dec _ _); [lia|reflexivity]. }
  destruct (C51_populations _ PO b c Hc Hb) as (A & B & D). rewrite !(act_unit RRing) in A, B, D by lia.
  rewrite Eb in A, B, D. auto.
Qed.
End Props.
(** *** Example: the two-level system of C25_case; entry (1, 0) is not zero in any of the four kernels *)
Open Scope R_scope.
Example C51_case : let m := (fun _ : nat => 2) in let th := (fun _ : nat => 1/2) in let d1 := (fun _ : nat => -100) in let d2 := (fun _ : nat => 5/2) in
  let quad := (fun a b c : R => a + b * c) in let dg := (fun x : R => x) in
  exists k, 0 < k /\
  kern_of RRing ex_L (pauli_calls RRing ex_L 2 (pauli_fct ex_L 2 ry_T ry_E m th d1 d2 2)) (1%Z, 0%Z) = k /\
  kern_of RRing ex_L (lindblad_calls RRing ex_L 2 (1/2) (lindblad_fct ex_L 2 ry_T ry_E m th d1 d2 2) ry_E) (1%Z, 0%Z) = k /\
  kern_of RRing ex_L (vn1_calls RRing ex_L 2 ry_T (vn1_fct ex_L 2 ry_E m th d1 d2 2 quad dg) ry_E) (1%Z, 0%Z) = k /\
  kern_of RRing ex_L (red_calls RRing ex_L 2 ry_T (vn1_fct ex_L 2 ry_E m th d1 d2 2 quad dg) ry_E) (1%Z, 0%Z) = k.
Proof.
  intros m th d1 d2 quad dg. destruct C25_case as (z & phi & _ & _ & _ & _ & _ & _ & _ & POS & _).
  exists (kern_of RRing ex_L (pauli_calls RRing ex_L 2 (pauli_fct ex_L 2 ry_T ry_E m th d1 d2 2)) (1%Z, 0%Z)).
  split; [exact POS|]. split; [reflexivity|].
  exact (C51_entries 2 "charge" ex_si ex_L (Nat.lt_0_succ 1) ltac:(discriminate) ex_system 2 ry_T ry_E m th d1 d2 2 quad dg ry_herm
     ltac:(lia) 1 0 ltac:(vm_compute; lia) ltac:(vm_compute; lia)).
Qed.
Print Assumptions C51_populations.
Print Assumptions C51_currents.
Print Assumptions C51_entries.
