(** Properties C31 and C32: solving the master equation. *)
From Coq Require Import String List Arith Lia ZArith Bool Permutation Ring QArith.
From Verif Require Import Base Bits Indexing IndexingProofs RemoveProofs Binom SsqProofs Qn
  PropIndexing DMIndex DMIndexProofs DMReach PropDMIndex CRing Layout Coherences Kernel KernelProofs
  PauliProofs CohProofs CohKernels CohCurrents PropKernel MatrixFree.
Import ListNotations.
Open Scope nat_scope.
Local Notation length := List.length.

Section Spec.
Variable K : CRing.
Local Open Scope rng_scope.
(** x solves the first [rows] equations  M x = b *)
Definition solves (rows size : nat) (M : Z * Z -> K) (b x : Z -> K) : Prop :=
  forall i, (i < rows)%nat -> act K size M x (Z.of_nat i) = b (Z.of_nat i).
(** the sum of the occupations of all considered states *)
Definition trace_of (L : Lay) (phi : Z -> K) : K :=
  rsum (fun c => rsum (fun b => re (rho K L phi b b c)) (states L c)) (charges L).
End Spec.

(** ** The first-order approaches: their kernels, and the number of unknowns *)
Section Approaches.
Variable K : CRing.
Local Open Scope rng_scope.
Variables (L : Lay) (nl : nat) (E : nat -> K).
Inductive first_order : nat -> list (call K) -> Prop :=
| fo_pauli : forall pf, first_order (ly_npauli L) (pauli_calls K L nl pf)
| fo_lindblad : forall h tL, h + h = 1 -> first_order (ly_ndm0r L) (lindblad_calls K L nl h tL E)
| fo_vn1 : forall T F, first_order (ly_ndm0r L) (vn1_calls K L nl T F E)
| fo_redfield : forall T F, first_order (ly_ndm0r L) (red_calls K L nl T F E).
End Approaches.

Section Props.
Variable K : CRing.
Local Open Scope rng_scope.
Add Ring KrS : (rth K).
Variables (n : nat) (name : string) (si : SI) (L : Lay).
Hypotheses (Hn : (1 <= n)%nat) (Hix : ix_of name n <> IxSsq) (SY : system n name si L).
Let LO : layout L := system_layout n name si L Hn Hix SY.

Lemma fo_trace : forall nl E size calls, first_order K L nl E size calls ->
  (ly_npauli L <= size)%nat /\ forall j, (j < size)%nat -> trace_column K L (kern_of K L calls) j = 0.
Proof.
  intros nl E size calls H.
  assert (NR : (ly_npauli L <= ly_ndm0r L)%nat) by (rewrite (lo_size L LO); lia).
  destruct H; split; auto.
  - intros. eapply C23_pauli_columns; eauto.
  - eapply C27_lindblad; eauto.
  - eapply C28_vn1; eauto.
  - eapply C29_redfield; eauto.
Qed.

Lemma trace_norm : forall phi, trace_of K L phi = phi0_norm K L phi.
Proof. intros phi. apply (C33_readout K n name si L Hn Hix SY phi). Qed.

(** *** C31, for any kernel whose trace rows cancel *)
Theorem C31_row_replacement : forall size kern r, (ly_npauli L <= size)%nat -> (0 <= r < Z.of_nat (ly_npauli L))%Z ->
  (forall j, (j < size)%nat -> trace_column K L kern j = 0) ->
  forall x, solves K size size (replace_row K kern r (norm_vec K L)) (set_entry K zeros r 1) x <->
            (stationary K size kern x /\ trace_of K L x = 1).
Proof.
  intros size kern r Hs Hr TC x. rewrite trace_norm. split.
  - intros SOL.
    assert (O : forall i, (i < size)%nat -> Z.of_nat i <> r -> act K size kern x (Z.of_nat i) = 0).
    { intros i Hi Hne. specialize (SOL i Hi). rewrite act_replaced in SOL. unfold set_entry, zeros in SOL.
      destruct (Z.eq_dec _ _); [congruence|auto]. }
    assert (R : act K size kern x r = 0) by (eapply last_row; eauto).
    split.
    + intros i Hi. destruct (Z.eq_dec (Z.of_nat i) r) as [->|Hne]; auto.
    + specialize (SOL (Z.to_nat r) ltac:(lia)). rewrite Z2Nat.id, act_replaced in SOL by lia.
      unfold set_entry in SOL. destruct (Z.eq_dec r r); [|congruence].
      now rewrite (norm_vec_dot K L LO) in SOL by auto.
  - intros [ST NO] i Hi. rewrite act_replaced. unfold set_entry, zeros. destruct (Z.eq_dec _ _); auto.
    now rewrite (norm_vec_dot K L LO) by auto.
Qed.

(** the extra-row variant *)
Theorem C31_extra_row : forall size kern, (ly_npauli L <= size)%nat ->
  forall x, solves K (S size)%nat size (replace_row K kern (Z.of_nat size) (norm_vec K L)) (set_entry K zeros (Z.of_nat size) 1) x <->
            (stationary K size kern x /\ trace_of K L x = 1).
Proof.
  intros size kern Hs x. rewrite trace_norm. split.
  - intros SOL. split.
    + intros i Hi. specialize (SOL i ltac:(lia)). rewrite act_replaced in SOL. unfold set_entry, zeros in SOL.
      destruct (Z.eq_dec _ _); [lia|auto].
    + specialize (SOL size ltac:(lia)). rewrite act_replaced in SOL. unfold set_entry in SOL.
      destruct (Z.eq_dec _ _); [|congruence]. now rewrite (norm_vec_dot K L LO) in SOL by auto.
  - intros [ST NO] i Hi. rewrite act_replaced. unfold set_entry, zeros. destruct (Z.eq_dec _ _) as [e|e].
    + now rewrite (norm_vec_dot K L LO) by auto.
    + apply ST. lia.
Qed.

(** the routine itself.  [exact_solver]: whenever the library routine returns, it returns an exact solution. *)
Definition exact_solver (rows size : nat) (lin : solmethod -> (Z * Z -> K) -> (Z -> K) -> option (Z -> K)) : Prop :=
  forall m M b x, lin m M b = Some x -> solves K rows size M b x.

Theorem C31_solve_kern : forall nl E size calls lin (symq : bool) r m s,
  first_order K L nl E size calls -> (0 <= r < Z.of_nat (ly_npauli L))%Z ->
  (forall ij, sv_kern K s ij = kern_of K L calls ij) -> (forall i, sv_bvec K s i = 0) ->
  let rows := (if symq then size else S size)%nat in
  let s' := solve_kern K L lin size symq r m s in
  (* the kernel is the generated one again, whatever the library routine did *)
  (symq = true -> forall ij, sv_kern K s' ij = kern_of K L calls ij) /\
  (symq = false -> forall i j, (i < size)%nat -> sv_kern K s' (Z.of_nat i, j) = kern_of K L calls (Z.of_nat i, j)) /\
  (* with a known method: success means a stationary state of unit trace; failure means zeros *)
  (m <> MOther -> exact_solver rows size lin ->
     if sv_success K s' then stationary K size (kern_of K L calls) (sv_phi0 K s') /\ trace_of K L (sv_phi0 K s') = 1
     else forall i, sv_phi0 K s' i = 0).
Proof.
  intros nl E size calls lin symq r m s FO Hr HK HB rows s'.
  destruct (fo_trace nl E size calls FO) as [Hs TC].
  assert (KEEP : sv_kern K s' = (let kern1 := replace_row K (sv_kern K s) (if symq then r else Z.of_nat size) (norm_vec K L) in
     if symq then replace_row K kern1 r (fun j => sv_kern K s (r, j)) else kern1)).
  { unfold s', solve_kern. destruct m; [destruct (lin _ _ _)|destruct (lin _ _ _)|destruct (sv_sol0 K s)]; destruct symq; reflexivity. }
  split; [|split].
  - intros -> [i j]. rewrite KEEP. cbv zeta. unfold replace_row. cbn [fst snd]. destruct (Z.eq_dec i r) as [->|]; auto.
  - intros -> i j Hi. rewrite KEEP. cbv zeta. unfold replace_row. cbn [fst snd]. destruct (Z.eq_dec _ _); [lia|auto].
  - intros Hm EX.
    set (row := if symq then r else Z.of_nat size).
    assert (X : match lin m (replace_row K (sv_kern K s) row (norm_vec K L)) (set_entry K (sv_bvec K s) row 1) with
       | Some x => sv_success K s' = true /\ sv_phi0 K s' = x | None => sv_success K s' = false /\ sv_phi0 K s' = zeros end).
    { unfold s', solve_kern. fold row. destruct m; try congruence; destruct (lin _ _ _); auto. }
    destruct (lin m _ _) as [x|] eqn:EL.
    + destruct X as [-> ->]. apply EX in EL.
      assert (EL' : solves K rows size (replace_row K (kern_of K L calls) row (norm_vec K L)) (set_entry K zeros row 1) x).
      { intros i Hi. specialize (EL i Hi). unfold set_entry, zeros in *. rewrite act_replaced in *.
        rewrite HB in EL. rewrite <- EL. destruct (Z.eq_dec _ _); auto. unfold act. apply rsum_ext. intros j _. now rewrite HK. }
      unfold row, rows in EL'. destruct symq; [eapply C31_row_replacement|eapply C31_extra_row]; eauto.
    + destruct X as [-> ->]. reflexivity.
Qed.

(** *** C32 *)
Lemma fo_mf : forall nl E size calls phi i, first_order K L nl E size calls ->
  dphi_of K L phi calls i =
    (if (i <? Z.of_nat (ly_ndm0 L))%Z then 1 else - (1)) * act K size (kern_of K L calls) phi i \/
  (size = ly_npauli L /\ dphi_of K L phi calls i = act K size (kern_of K L calls) phi i).
Proof.
  intros nl E size calls phi i H. destruct H.
  - right. split; auto. apply mf_act_pauli; auto.
  - left. apply (mf_act K L LO phi E). apply lindblad_ok; auto.
  - left. apply (mf_act K L LO phi E). apply vn1_ok; auto.
  - left. apply (mf_act K L LO phi E). apply red_ok; auto.
Qed.

Theorem C32_matrix_free : forall nl E size calls phi r, first_order K L nl E size calls ->
  (* away from the replaced row: the kernel times phi, with the sign of imaginary rows reversed *)
  (forall i, (i < size)%nat -> Z.of_nat i <> r ->
     generate_vec K L calls r phi (Z.of_nat i) =
       (if (i <? ly_ndm0 L)%nat then 1 else - (1)) * act K size (kern_of K L calls) phi (Z.of_nat i)) /\
  generate_vec K L calls r phi r = trace_of K L phi - 1 /\
  (* the roots of the residual are the stationary states of unit trace *)
  ((0 <= r < Z.of_nat (ly_npauli L))%Z ->
     ((forall i, (i < size)%nat -> generate_vec K L calls r phi (Z.of_nat i) = 0) <->
      (stationary K size (kern_of K L calls) phi /\ trace_of K L phi = 1))).
Proof.
  intros nl E size calls phi r FO. destruct (fo_trace nl E size calls FO) as [Hs TC].
  assert (A : forall i, (i < size)%nat -> Z.of_nat i <> r ->
     generate_vec K L calls r phi (Z.of_nat i) =
       (if (i <? ly_ndm0 L)%nat then 1 else - (1)) * act K size (kern_of K L calls) phi (Z.of_nat i)).
  { intros i Hi Hne. unfold generate_vec. destruct (Z.eq_dec _ _); [congruence|].
    assert (SG : (Z.of_nat i <? Z.of_nat (ly_ndm0 L))%Z = (i <? ly_ndm0 L)%nat).
    { destruct (Nat.ltb_spec i (ly_ndm0 L)); [apply Z.ltb_lt|apply Z.ltb_ge]; lia. }
    destruct (fo_mf nl E size calls phi (Z.of_nat i) FO) as [->|(Hz & ->)]; rewrite <- SG; auto.
    assert (Hlt : (Z.of_nat i < Z.of_nat (ly_ndm0 L))%Z) by (pose proof (lo_le L LO); lia).
    apply Z.ltb_lt in Hlt. rewrite Hlt. ring. }
  assert (B : generate_vec K L calls r phi r = trace_of K L phi - 1).
  { unfold generate_vec. destruct (Z.eq_dec r r); [|congruence]. now rewrite trace_norm. }
  split; auto. split; auto. intros Hr. split.
  - intros Z0.
    assert (O : forall i, (i < size)%nat -> Z.of_nat i <> r -> act K size (kern_of K L calls) phi (Z.of_nat i) = 0).
    { intros i Hi Hne. specialize (Z0 i Hi). rewrite A in Z0 by auto. destruct (i <? ly_ndm0 L)%nat.
      - rewrite <- Z0. ring.
      - transitivity (- (- (1) * act K size (kern_of K L calls) phi (Z.of_nat i))); [ring|rewrite Z0; ring]. }
    split.
    + intros i Hi. destruct (Z.eq_dec (Z.of_nat i) r) as [->|Hne]; auto. eapply last_row; eauto.
    + specialize (Z0 (Z.to_nat r) ltac:(lia)). rewrite Z2Nat.id in Z0 by lia. rewrite B in Z0.
      transitivity ((trace_of K L phi - 1) + 1); [ring|rewrite Z0; ring].
  - intros [ST NO] i Hi. destruct (Z.eq_dec (Z.of_nat i) r) as [->|Hne].
    + rewrite B, NO. ring.
    + rewrite A, ST by auto. ring.
Qed.
End Props.
Print Assumptions C31_row_replacement.
Print Assumptions C31_extra_row.
Print Assumptions C31_solve_kern.
Print Assumptions C32_matrix_free.

(** A solmethod that is neither 'solve' nor 'lsqr' (aprclass.py accepts 'lsmr' and any string with
    symq=True): the previous solution is handed out again and success is True. *)
Theorem C31_unknown_method_refuted : exists s : Solver ZRing, exists L size,
  sv_bvec ZRing s = zeros /\ (1 <= ly_npauli L)%nat /\
  forall lin, let s' := solve_kern ZRing L lin size true 0 MOther s in
  sv_success ZRing s' = true /\ ~ stationary ZRing size (sv_kern ZRing s) (sv_phi0 ZRing s').
Proof.
  exists (mkSolver ZRing (kern_of ZRing ex_L (pauli_calls ZRing ex_L 2 ex_pf)) zeros zeros
    (Some (fun i => if Z.eq_dec i 0 then 1 else 0)%Z) zeros true).
  exists ex_L, 4. split; [reflexivity|]. split; [vm_compute; lia|]. intros lin s'. split; [reflexivity|].
  intros ST. specialize (ST 0 ltac:(lia)). vm_compute in ST. discriminate.
Qed.
Print Assumptions C31_unknown_method_refuted.

(** ** Examples *)
(** two levels, Pauli rates 1: the uniform state *)
Definition ex_pf1 (l k : nat) (q : bool) : QRing := qz 1.
Definition ex_quarter (i : Z) : QRing := Qcanon.Q2Qc (1 # 4).
Definition ex_lin (m : solmethod) (M : Z * Z -> QRing) (b : Z -> QRing) : option (Z -> QRing) := Some ex_quarter.
Example C31_case :
  let calls := pauli_calls QRing ex_L 2 ex_pf1 in
  let kern := kern_of QRing ex_L calls in
  first_order QRing ex_L 2 (fun _ => qz 0) 4 calls /\
  map (map Qcanon.this) (kern_rows 4 (replace_row QRing kern 1 (norm_vec QRing ex_L))) =
    [[-4; 2; 2; 0]; [1; 1; 1; 1]; [2; 0; -4; 2]; [0; 2; 2; -4]]%Q /\
  map (fun i => Qcanon.this (act QRing 4 (replace_row QRing kern 1 (norm_vec QRing ex_L)) ex_quarter (Z.of_nat i))) (seq 0 4) =
    [0; 1; 0; 0]%Q /\
  map (fun i => Qcanon.this (act QRing 4 kern ex_quarter (Z.of_nat i))) (seq 0 4) = [0; 0; 0; 0]%Q /\
  sv_success QRing (solve_kern QRing ex_L ex_lin 4 true 1 MSolve (mkSolver QRing kern zeros zeros None zeros false)) = true.
Proof. split; [apply (fo_pauli QRing ex_L 2 (fun _ => qz 0))|]. vm_compute. auto. Qed.
Example C32_case :
  let calls := vn1_calls ZRing ex_L 2 ex_T ex_F ex_EZ in
  first_order ZRing ex_L 2 ex_EZ 6 calls /\
  map (fun i => generate_vec ZRing ex_L calls 0 ex_phi (Z.of_nat i)) (seq 0 6) = [15; -7660; 136908; -130152; 47529; -31603]%Z /\
  map (fun i => act ZRing 6 (kern_of ZRing ex_L calls) ex_phi (Z.of_nat i)) (seq 0 6) = [904; -7660; 136908; -130152; 47529; 31603]%Z.
Proof. split; [apply (fo_vn1 ZRing ex_L 2 ex_EZ)|]. vm_compute. auto. Qed.
