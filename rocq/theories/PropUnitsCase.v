(** Property C74: an example. *)
From Coq Require Import String List Arith Lia ZArith Bool Ring Reals Lra FunctionalExtensionality.
From Verif Require Import Base Bits Indexing Qn DMIndex CRing SpecFunc Layout Kernel KernelProofs PropKernel MasterEq PropMaster KernelGen Rates PropRates PropSolve PropStationary PropGauge PropUnits.
Import ListNotations.
Local Open Scope R_scope.
Local Notation Cr := (Cx RRing).
(** The double dot of C69_case in units four times smaller, the amplitudes of lead 0 doubled, those of lead 1 doubled and turned by i:
    the same occupations, currents four times, energy and heat currents sixteen times as large. *)
Definition ux_rho (l : nat) : Cr := if Nat.eqb l 0 then @mkC RRing 2 0 else @mkC RRing 0 2.
Example C74_case : exists x,
  let E' := fun b => 4 * ry_E b in let mu' := fun l => 4 * sx_mu l in let tl' := fun l => 4 * sx_tl l in
  let T' := unit_T ex_si ry_T ux_rho in
  let pf := pauli_fct ex_L 2 ry_T ry_E sx_mu sx_tl (fun _ => -100) (fun _ => 100) 0 in
  let pf' := pauli_fct ex_L 2 T' E' mu' tl' (fun _ => -400) (fun _ => 400) 0 in
  T' 1%nat 1%nat 0%nat = @rmul Cr (@mkC RRing 0 2) (ry_T 1%nat 1%nat 0%nat) /\ T' 1%nat 0%nat 1%nat = @rmul Cr (@mkC RRing 0 (-2)) (ry_T 1%nat 0%nat 1%nat) /\
  solution ex_L (kern_of RRing ex_L (pauli_calls RRing ex_L 2 pf)) 0 x /\ solution ex_L (kern_of RRing ex_L (pauli_calls RRing ex_L 2 pf')) 0 x /\
  0 < x 0%Z < 1 /\ forall l, pauli_current RRing ex_L x pf' l = 4 * pauli_current RRing ex_L x pf l /\
    heat_of RRing (pauli_current RRing ex_L x pf') (pauli_energy_current RRing ex_L x pf' E') mu' l =
    16 * heat_of RRing (pauli_current RRing ex_L x pf) (pauli_energy_current RRing ex_L x pf ry_E) sx_mu l.
Proof.
  destruct C69_case as (_ & x & SX & P & _). exists x. intros E' mu' tl' T' pf pf'.
  assert (Hix : ix_of "charge" 2 <> IxSsq) by discriminate. assert (H2 : (1 <= 2)%nat) by lia.
  assert (Em : (fun _ : nat => -400) = unit_ 4 (fun _ => -100)) by (apply functional_extensionality; intros k; unfold unit_; lra).
  assert (Ep : (fun _ : nat => 400) = unit_ 4 (fun _ => 100)) by (apply functional_extensionality; intros k; unfold unit_; lra).
  assert (Hr : forall l, rmul (ux_rho l) (conj (ux_rho l)) = @ofR RRing 4).
  { intros l. unfold ux_rho. destruct (Nat.eqb l 0); apply cplx_eq; rewrite ?re_mul, ?im_mul; cbn [conj re im ofR]; match goal with |- @eq _ ?u ?v => change (@eq R u v) end; cbn; ring. }
  assert (Ht : forall l, sx_tl l <> 0) by (intros l; unfold sx_tl; try destruct l as [|[|l]]; lra).
  assert (S4 : 4 <> 0) by lra.
  destruct (C74_stationary 2 "charge" ex_si ex_L H2 Hix ex_system 2 ry_T ry_E sx_mu sx_tl (fun _ => -100) (fun _ => 100) 0 (fun _ _ _ => 0) (fun _ => 0) 4 ux_rho S4 Hr Ht (1 / 2)
    (ly_npauli ex_L) (ly_npauli ex_L) 0%Z (norm_vec RRing ex_L) x) as (KS & _).
  rewrite <- Em, <- Ep in KS.
  pose proof (C74_currents 2 "charge" ex_si ex_L H2 Hix ex_system 2 ry_T ry_E sx_mu sx_tl (fun _ => -100) (fun _ => 100) 0 (fun _ _ _ => 0) (fun _ => 0) 4 ux_rho S4 Hr Ht x (1 / 2)) as CU.
  rewrite <- Em, <- Ep in CU.
  split; [reflexivity|]. split; [|].
  { unfold T', unit_T, ux_rho. replace (charge_of ex_si 0) with 0%nat by reflexivity. replace (charge_of ex_si 1) with 1%nat by reflexivity. cbn [Nat.ltb Nat.leb Nat.eqb].
    reflexivity. }
  split; [exact SX|]. split; [apply KS; exact SX|]. split; [exact P|].
  intros l. destruct (CU l) as (A & _). unfold out, rescaled in A. injection A as A1 A2 A3. split; [exact A1|].
  transitivity (4 * 4 * heat_of RRing (pauli_current RRing ex_L x pf) (pauli_energy_current RRing ex_L x pf ry_E) sx_mu l); [exact A3|].
  match goal with |- @eq _ ?u ?v => change (@eq R u v) end. replace (4 * 4) with 16 by lra. reflexivity.
Qed.
