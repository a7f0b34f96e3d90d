(** Property C76: on the boundary of the positive density matrices the Lindblad kernel points inwards,
    the 1vN and Redfield kernels do not. *)
From Coq Require Import String List Arith Lia ZArith Bool Permutation Ring Reals Lra.
From Verif Require Import Base Bits Indexing IndexingProofs RemoveProofs PropIndexing CRing Operators PropOperators SpecFunc
  Qn DMIndex Layout Kernel KernelProofs CohProofs PropKernel MasterEq PropMaster KernelGen Rates PropRates ElPh PropElPh.
Import ListNotations.
Open Scope nat_scope.
Local Notation length := List.length.
Local Notation Cr := (Cx RRing).

(** ** Specification: positive semidefinite operators on the states S_ *)
Section Spec.
Local Open Scope rng_scope.
Variable S_ : list nat.
(** <v| X |v> *)
Definition form (X : nat -> nat -> Cr) (v : nat -> Cr) : Cr := rsum (fun s => rsum (fun t => CRing.conj (v s) * X s t * v t) S_) S_.
Definition positive (X : nat -> nat -> Cr) : Prop := forall v, (0 <= re (form X v))%R.
(** X v = 0 *)
Definition kills (X : nat -> nat -> Cr) (v : nat -> Cr) : Prop := forall s, In s S_ -> rsum (fun t => X s t * v t) S_ = 0.
End Spec.

Section Forms.
Local Open Scope rng_scope.
Variable SS : list nat.
Add Ring CrP : (rth (Cx RRing)).
Local Notation F := (form SS).
Lemma form_add : forall X Y v, F (fun s t => X s t + Y s t) v = F X v + F Y v.
Proof. intros X Y v. unfold form. rewrite <- rsum_plus. apply rsum_ext. intros s _. rewrite <- rsum_plus. apply rsum_ext. intros t _. ring. Qed.
Lemma form_scale : forall c X v, F (fun s t => c * X s t) v = c * F X v.
Proof. intros c X v. unfold form. rewrite <- rsum_mul_l. apply rsum_ext. intros s _. rewrite <- rsum_mul_l. apply rsum_ext. intros t _. ring. Qed.
Lemma form_sum : forall A (X : A -> nat -> nat -> Cr) ls v, F (fun s t => rsum (fun l => X l s t) ls) v = rsum (fun l => F (X l) v) ls.
Proof.
  intros A X ls v. induction ls as [|l ls IH]; cbn [rsum].
  - unfold form. apply rsum_0. intros s _. apply rsum_0. intros t _. ring.
  - rewrite <- IH. exact (form_add (X l) (fun s t => rsum (fun l => X l s t) ls) v).
Qed.
Lemma form_ext : forall X Y v, (forall s t, In s SS -> In t SS -> v s <> 0 -> v t <> 0 -> X s t = Y s t) -> F X v = F Y v.
Proof.
  intros X Y v H. assert (D : forall z : Cr, z = 0 \/ z <> 0).
  { intros [a b]. destruct (Req_dec a 0) as [->|Ha]; [destruct (Req_dec b 0) as [->|Hb]|].
    - left. reflexivity.
    - right. intros Z. apply Hb. exact (f_equal im Z).
    - right. intros Z. apply Ha. exact (f_equal re Z). }
  unfold form. apply rsum_ext. intros s Hs. apply rsum_ext. intros t Ht.
  destruct (D (v s)) as [->|A]; [rewrite conj_0; ring|]. destruct (D (v t)) as [->|B]; [ring|]. now rewrite H.
Qed.
(** a product with an operator that kills v on its side has no expectation value *)
Lemma form_right : forall X D v, kills SS D v -> F (op_mul RRing SS X D) v = 0.
Proof.
  intros X D v H. unfold form, op_mul. apply rsum_0. intros s Hs.
  transitivity (rsum (fun t => rsum (fun u => CRing.conj (v s) * X s u * (D u t * v t)) SS) SS).
  { apply rsum_ext. intros t _. transitivity (CRing.conj (v s) * v t * rsum (fun u => X s u * D u t) SS); [ring|]. rewrite <- rsum_mul_l. apply rsum_ext. intros u _. ring. }
  rewrite rsum_swap. apply rsum_0. intros u Hu. rewrite rsum_mul_l, (H u Hu). ring.
Qed.
Lemma form_left : forall X D v, kills SS D v -> (forall s t, In s SS -> In t SS -> CRing.conj (D s t) = D t s) -> F (op_mul RRing SS D X) v = 0.
Proof.
  intros X D v H HD. unfold form, op_mul. rewrite rsum_swap. apply rsum_0. intros t Ht.
  transitivity (rsum (fun s => rsum (fun u => (CRing.conj (v s) * D s u) * (X u t * v t)) SS) SS).
  { apply rsum_ext. intros s _. transitivity (CRing.conj (v s) * v t * rsum (fun u => D s u * X u t) SS); [ring|]. rewrite <- rsum_mul_l. apply rsum_ext. intros u _. ring. }
  rewrite rsum_swap. apply rsum_0. intros u Hu. rewrite rsum_mul_r.
  assert (Z : rsum (fun s => CRing.conj (v s) * D s u) SS = CRing.conj (rsum (fun s => D u s * v s) SS)).
  { rewrite rsum_conj. apply rsum_ext. intros s Hs. rewrite conj_mul, (HD u s Hu Hs). ring. }
  rewrite Z, (H u Hu), conj_0. ring.
Qed.
Lemma form_sand : forall A D v, F (op_mul RRing SS (op_mul RRing SS A D) (op_adj RRing A)) v = F D (fun u => rsum (fun s => CRing.conj (A s u) * v s) SS).
Proof.
  intros A D v. unfold form, op_mul, op_adj.
  transitivity (rsum (fun s => rsum (fun t => rsum (fun w => rsum (fun u => CRing.conj (v s) * A s u * D u w * (CRing.conj (A t w) * v t)) SS) SS) SS) SS).
  { apply rsum_ext. intros s _. apply rsum_ext. intros t _.
    transitivity (CRing.conj (v s) * v t * rsum (fun w => rsum (fun u => A s u * D u w) SS * CRing.conj (A t w)) SS); [ring|]. rewrite <- rsum_mul_l. apply rsum_ext. intros w _.
    transitivity (CRing.conj (v s) * v t * CRing.conj (A t w) * rsum (fun u => A s u * D u w) SS); [ring|]. rewrite <- rsum_mul_l. apply rsum_ext. intros u _. ring. }
  transitivity (rsum (fun u => rsum (fun w => rsum (fun s => rsum (fun t => CRing.conj (v s) * A s u * D u w * (CRing.conj (A t w) * v t)) SS) SS) SS) SS).
  { transitivity (rsum (fun s => rsum (fun u => rsum (fun w => rsum (fun t => CRing.conj (v s) * A s u * D u w * (CRing.conj (A t w) * v t)) SS) SS) SS) SS).
    - apply rsum_ext. intros s _.
      transitivity (rsum (fun t => rsum (fun u => rsum (fun w => CRing.conj (v s) * A s u * D u w * (CRing.conj (A t w) * v t)) SS) SS) SS).
      { apply rsum_ext. intros t _. apply rsum_swap. }
      rewrite rsum_swap. apply rsum_ext. intros u _. apply rsum_swap.
    - rewrite rsum_swap. apply rsum_ext. intros u _. apply rsum_swap. }
  apply rsum_ext. intros u _. apply rsum_ext. intros w _.
  rewrite rsum_conj. transitivity (rsum (fun s => CRing.conj (CRing.conj (A s u) * v s)) SS * (D u w * rsum (fun t => CRing.conj (A t w) * v t) SS)); [|ring].
  rewrite <- rsum_mul_r. apply rsum_ext. intros s _. rewrite rsum_mul_l, conj_mul, conj_conj. ring.
Qed.
End Forms.

(** ** An empty state of a positive operator has no coherences *)
Section Null.
Local Open Scope rng_scope.
Add Ring CrNull : (rth (Cx RRing)).
Definition delta (b s : nat) : Cr := if Nat.eqb s b then 1 else 0.
Lemma conj_1R : CRing.conj (@r1 Cr) = 1.
Proof. apply cplx_eq; [reflexivity|cbn; apply Ropp_0]. Qed.
Lemma delta_sum : forall SS (f : nat -> Cr) b, NoDup SS -> In b SS -> rsum (fun t => f t * delta b t) SS = f b.
Proof.
  intros SS f b ND Hb. rewrite (rsum_single Cr _ _ SS b); auto.
  - unfold delta. rewrite Nat.eqb_refl. ring.
  - intros t _ Ht. unfold delta. destruct (Nat.eqb_spec t b); [congruence|]. ring.
Qed.
Lemma conj_delta : forall b s, CRing.conj (delta b s) = delta b s.
Proof. intros b s. unfold delta. destruct (Nat.eqb s b); [apply conj_1R|apply conj_0]. Qed.
Lemma form_delta : forall SS X b, NoDup SS -> In b SS -> form SS X (delta b) = X b b.
Proof.
  intros SS X b ND Hb. unfold form. transitivity (rsum (fun s => X s b * delta b s) SS); [|exact (delta_sum SS (fun s => X s b) b ND Hb)].
  apply rsum_ext. intros s _. rewrite (delta_sum SS (fun t => CRing.conj (delta b s) * X s t)), conj_delta by auto. ring.
Qed.
Lemma form_two : forall SS X a b y, NoDup SS -> In a SS -> In b SS -> form SS X (fun s => delta a s + y * delta b s) = X a a + X a b * y + CRing.conj y * X b a + CRing.conj y * y * X b b.
Proof.
  intros SS X a b y ND Ha Hb. unfold form.
  transitivity (rsum (fun s => (X s a + X s b * y) * delta a s + (CRing.conj y * (X s a + X s b * y)) * delta b s) SS).
  - apply rsum_ext. intros s _. set (c := CRing.conj (delta a s + y * delta b s)).
    transitivity (rsum (fun t => (c * X s t) * delta a t + (c * X s t * y) * delta b t) SS); [apply rsum_ext; intros t _; ring|].
    rewrite rsum_plus, (delta_sum SS (fun t => c * X s t)), (delta_sum SS (fun t => c * X s t * y)) by auto. unfold c. rewrite conj_add, conj_mul, !conj_delta. ring.
  - rewrite rsum_plus, (delta_sum SS (fun s => X s a + X s b * y)), (delta_sum SS (fun s => CRing.conj y * (X s a + X s b * y))) by auto. ring.
Qed.
Lemma positive_null : forall SS X b, NoDup SS -> In b SS -> positive SS X -> (forall s t, In s SS -> In t SS -> CRing.conj (X s t) = X t s) -> X b b = 0 -> kills SS X (delta b).
Proof.
  intros SS X b ND Hb HP HH H0 s Hs. rewrite (delta_sum SS (fun t => X s t)) by auto.
  destruct (X s b) as [p q] eqn:E. assert (E' : X b s = @mkC RRing p (- q)%R) by (rewrite <- (HH s b Hs Hb), E; reflexivity).
  destruct (X s s) as [w z] eqn:Ess.
  assert (K : forall k : R, (0 <= w - 2 * k * (p * p + q * q))%R).
  { intros k. pose proof (HP (fun t => delta s t + (@mkC RRing (- (k * p))%R (k * q)%R : Cr) * delta b t)) as Y.
    rewrite form_two, H0, Ess, E, E' in Y by auto. rewrite !re_add, !re_mul in Y. cbn in Y.
    match type of Y with (0 <= ?u)%R => replace u with (w - 2 * k * (p * p + q * q))%R in Y; [exact Y|] end.
    change (im (@r0 Cr)) with 0%R. change (re (@r0 Cr)) with 0%R. ring. }
  assert (M : (p * p + q * q = 0)%R).
  { set (m := (p * p + q * q)%R) in *. assert (P : (0 <= m)%R) by (unfold m; pose proof (Rle_0_sqr p); pose proof (Rle_0_sqr q); unfold Rsqr in *; lra).
    destruct (Req_dec m 0) as [|Hm]; auto. exfalso. pose proof (K ((w + 1) / (2 * m))%R) as Y. replace (w - 2 * ((w + 1) / (2 * m)) * m)%R with (-1)%R in Y by (field; auto). lra. }
  apply Rplus_sqr_eq_0 in M. destruct M as [-> ->]. reflexivity.
Qed.
End Null.

Section Props.
Local Open Scope rng_scope.
Add Ring CrPP : (rth (Cx RRing)).
Variables (n : nat) (name : string) (si : SI) (L : Lay).
Hypotheses (Hn : (1 <= n)%nat) (Hix : ix_of name n <> IxSsq) (SY : system n name si L).
Let LO : layout L := system_layout n name si L Hn Hix SY.
Let CH := system_charge n name si L Hn Hix SY.
Local Notation N := (PropKernel.charge_of si).
Local Notation SS := (cons_states L).
Local Notation D phi := (dens RRing L N phi).
(** the density matrix element s, t of the time derivative a kernel prescribes *)
Definition rate_of (kern : Z * Z -> R) (phi : Z -> R) (s t : nat) : Cr := rho RRing L (act RRing (ly_ndm0r L) kern phi) s t (Z.of_nat (N s)).
Lemma diss_form : forall h A phi v, kills SS (D phi) v -> form SS (dissipator RRing SS h A (D phi)) v = form SS (D phi) (fun u => rsum (fun s => CRing.conj (A s u) * v s) SS).
Proof.
  intros h A phi v HK. unfold dissipator.
  set (X := op_mul RRing SS (op_mul RRing SS A (D phi)) (op_adj RRing A)). set (M := op_mul RRing SS (op_adj RRing A) A).
  transitivity (form SS (fun s t => X s t + (- @ofR RRing h) * (op_mul RRing SS M (D phi) s t + op_mul RRing SS (D phi) M s t)) v).
  { apply form_ext. intros s t _ _ _ _. ring. }
  rewrite (form_add SS X), (form_scale SS (- @ofR RRing h)), (form_add SS (op_mul RRing SS M (D phi))), form_right, form_left by (auto; exact (dens_herm_on RRing L LO N CH phi)).
  unfold X. rewrite form_sand. ring.
Qed.
Lemma half_twice : @radd RRing (1/2)%R (1/2)%R = @r1 RRing.
Proof. match goal with |- @eq _ ?u ?v => change (@eq R u v) end; cbn; field. Qed.
Lemma master_form : forall nl tL E phi v, positive SS (D phi) -> kills SS (D phi) v ->
  (0 <= re (form SS (master RRing SS E nl (lindblad_lead RRing SS N (1/2)%R tL) (D phi)) v))%R.
Proof.
  intros nl tL E phi v HP HK.
  unfold master. rewrite (form_add SS (fun s t => - Ci RRing * op_comm RRing SS (op_energy RRing E) (D phi) s t)).
  rewrite (form_scale SS (- Ci RRing)), (form_sum SS nat (fun l => lindblad_lead RRing SS N (1/2)%R tL (D phi) l)).
  assert (Z : form SS (op_comm RRing SS (op_energy RRing E) (D phi)) v = 0).
  { unfold op_comm. transitivity (form SS (fun s t => op_mul RRing SS (op_energy RRing E) (D phi) s t + (-(1)) * op_mul RRing SS (D phi) (op_energy RRing E) s t) v).
    { apply form_ext. intros s t _ _ _ _. ring. }
    rewrite (form_add SS (op_mul RRing SS (op_energy RRing E) (D phi))), (form_scale SS (-(1))), form_right, form_left by (auto; exact (dens_herm_on RRing L LO N CH phi)). ring. }
  rewrite Z. replace (- Ci RRing * 0) with (0 : Cr) by ring. rewrite re_add, rsum_re.
  change (re (0 : Cr)) with 0%R. match goal with |- (0 <= ?x)%R => change x with (0 + @rsum RRing nat (fun l => re (form SS (lindblad_lead RRing SS N (1/2)%R tL (D phi) l) v)) (leads nl))%R end.
  rewrite Rplus_0_l. generalize (leads nl). intros ls. induction ls as [|l ls IH]; [apply Rle_refl|]. cbn [rsum]. apply Rplus_le_le_0_compat; [|exact IH].
  unfold lindblad_lead, op_add. rewrite (form_add SS (dissipator RRing SS (1/2)%R (op_up RRing N (tL l)) (D phi))), !diss_form by auto. rewrite re_add.
  apply Rplus_le_le_0_compat; apply HP.
Qed.
(** v has components only on states whose mutual coherences are kept *)
Definition on_elements (v : nat -> Cr) : Prop := forall s t, In s SS -> In t SS -> v s <> 0 -> v t <> 0 -> el L s t (Z.of_nat (N s)).
Theorem C76_lindblad : forall nl tL E phi v, positive SS (D phi) -> kills SS (D phi) v -> on_elements v ->
  (0 <= re (form SS (rate_of (kern_of RRing L (lindblad_calls RRing L nl (1/2)%R tL E)) phi) v))%R.
Proof.
  intros nl tL E phi v HP HK HV.
  rewrite (form_ext SS _ (master RRing SS E nl (lindblad_lead RRing SS N (1/2)%R tL) (D phi)) v); [now apply master_form|].
  intros s t Hs Ht A B. unfold rate_of. apply (C46_lindblad RRing n name si L Hn Hix SY nl (1/2)%R tL E phi s t (Z.of_nat (N s)) half_twice). now apply HV.
Qed.
(** with phonon baths *)
Theorem C76_phonons : forall L2 nl nb tL tV E phi v, elph_system n name si L L2 -> positive SS (D phi) -> kills SS (D phi) v -> on_elements v ->
  (0 <= re (form SS (rate_of (kern_of RRing L (elph_lindblad_calls RRing L nl nb (1/2)%R tL tV E)) phi) v))%R.
Proof.
  intros L2 nl nb tL tV E phi v ES HP HK HV.
  rewrite (form_ext SS _ (elph_master RRing L E nl nb (lindblad_lead RRing SS N (1/2)%R tL) (ph_lindblad_bath RRing SS N (1/2)%R tV) (D phi)) v).
  2:{ intros s t Hs Ht A B. unfold rate_of. apply (C49_lindblad RRing n name si L L2 Hn Hix ES nl nb (1/2)%R tL tV E phi s t (Z.of_nat (N s)) half_twice). now apply HV. }
  unfold elph_master. rewrite (form_add SS (master RRing SS E nl (lindblad_lead RRing SS N (1/2)%R tL) (D phi))), re_add.
  apply Rplus_le_le_0_compat; [now apply master_form|].
  rewrite (form_sum SS nat (fun l => ph_lindblad_bath RRing SS N (1/2)%R tV (D phi) l)). rewrite rsum_re.
  generalize (leads nb). intros ls. induction ls as [|l ls IH]; [apply Rle_refl|]. cbn [rsum]. apply Rplus_le_le_0_compat; [|exact IH].
  unfold ph_lindblad_bath. rewrite (form_sum SS bool (fun q => dissipator RRing SS (1/2)%R (op_same RRing N (fun a b => tV l a b q)) (D phi))).
  rewrite rsum_re. cbn [rsum]. rewrite !diss_form by auto.
  apply Rplus_le_le_0_compat; [apply HP|]. apply Rplus_le_le_0_compat; [apply HP|apply Rle_refl].
Qed.
(** the occupation of an empty state does not decrease *)
Theorem C76_population : forall nl tL E phi b, In b SS -> positive SS (D phi) -> D phi b b = 0 ->
  (0 <= re (rate_of (kern_of RRing L (lindblad_calls RRing L nl (1/2)%R tL E)) phi b b))%R.
Proof.
  intros nl tL E phi b Hb HP H0. assert (ND : NoDup SS).
  { unfold cons_states. apply NoDup_flat_map.
    - apply charges_nodup.
    - intros c Hc. apply charges_in in Hc. apply (lo_nodup L LO). lia.
    - intros c c' b0 Hc Hc' Hb0 Hb'. apply charges_in in Hc, Hc'. apply (lo_same L LO c c' b0); auto; lia. }
  rewrite <- (form_delta SS (rate_of (kern_of RRing L (lindblad_calls RRing L nl (1/2)%R tL E)) phi) b ND Hb). apply C76_lindblad; auto.
  - apply positive_null; auto. exact (dens_herm_on RRing L LO N CH phi).
  - intros s t Hs Ht A B. unfold delta in A, B. destruct (Nat.eqb_spec s b) as [->|]; [|now destruct A]. destruct (Nat.eqb_spec t b) as [->|]; [|now destruct B].
    pose proof (cons_block_of L N CH b Hb) as Q. destruct (lo_diag L LO b (Z.of_nat (N b)) ltac:(lia) Q) as (Z & _). split; [lia|]. split; [exact Q|]. split; [exact Q|]. lia.
Qed.
End Props.
Print Assumptions C76_lindblad.
Print Assumptions C76_phonons.
Print Assumptions C76_population.

(** ** 1vN and Redfield: two levels at 0 and 1 coupled to one lead with equal amplitudes, the electron in the state
    (4|1> - 3|2>)/5 *)
Definition px_phi (k : Z) : R := match k with 1%Z => 16/25 | 2%Z => 9/25 | 4%Z => - (12/25) | _ => 0 end%R.
Definition px_T (l a b : nat) : Cr := match a, b with 0, 1 | 1, 0 | 0, 2 | 2, 0 | 1, 3 | 3, 1 => r1 | 2, 3 | 3, 2 => ropp r1 | _, _ => r0 end%nat.
Definition px_E (b : nat) : R := match b with 2%nat | 3%nat => 1 | _ => 0 end%R.
Definition px_x (s : nat) : Cr := match s with 1%nat => @ofR RRing (4/5)%R | 2%nat => @ofR RRing (-(3/5))%R | _ => r0 end.
Local Notation exN := (PropKernel.charge_of ex_si).
Local Notation S4 := [0; 1; 2; 3]%nat.
Lemma px_cases : forall s, In s S4 -> s = 0 \/ s = 1 \/ s = 2 \/ s = 3.
Proof. intros s H. cbn in H. intuition. Qed.
Lemma px_dens : forall s t, In s S4 -> In t S4 -> dens RRing ex_L exN px_phi s t = rmul (px_x s) (CRing.conj (px_x t)).
Proof.
  intros s t Hs Ht. apply px_cases in Hs, Ht.
  destruct Hs as [->|[->|[->| ->]]], Ht as [->|[->|[->| ->]]]; apply cplx_eq; cbv -[Rplus Rmult Ropp Rminus Rdiv R0 R1 IZR Rinv];
    match goal with |- @eq _ ?u ?v => change (@eq R u v) end; field.
Qed.
Section Pure.
Local Open Scope rng_scope.
Add Ring CrPure : (rth (Cx RRing)).
Lemma pure_positive : forall SS (x : nat -> Cr) X, (forall s t, In s SS -> In t SS -> X s t = x s * CRing.conj (x t)) -> positive SS X.
Proof.
  intros SS x X H v. set (z := rsum (fun t => CRing.conj (x t) * v t) SS : Cr).
  assert (Z : form SS X v = CRing.conj z * z).
  { unfold z, form. rewrite rsum_conj, <- rsum_mul_r. apply rsum_ext. intros s Hs. rewrite <- rsum_mul_l. apply rsum_ext. intros t Ht.
    rewrite H by auto. rewrite conj_mul, conj_conj. ring. }
  rewrite Z. destruct z as [a b]. rewrite re_mul. cbn. match goal with |- (0 <= ?u)%R => replace u with (a * a + b * b)%R by ring end.
  pose proof (Rle_0_sqr a). pose proof (Rle_0_sqr b). unfold Rsqr in *. lra.
Qed.
End Pure.
Ltac rcalc := match goal with |- @eq _ ?u ?v => change (@eq R u v) end.
Lemma px_vn1 : forall E F0 F1 r, (forall s t, In s S4 -> In t S4 -> r s t = rmul (px_x s) (CRing.conj (px_x t))) ->
  re (master RRing S4 E 1 (vn1_lead RRing S4 exN px_T F0 F1) r 0 0) = (2 * (16/25 - 12/25) * im (F1 0%nat 1%nat 0%nat) + 2 * (9/25 - 12/25) * im (F1 0%nat 2%nat 0%nat))%R.
Proof.
  intros E F0 F1 r H. unfold master, vn1_lead, vn1_phi, op_comm, op_add, op_adj, op_up, op_had, op_mul. cbn [leads seq rsum].
  replace (exN 0) with 0%nat by reflexivity. replace (exN 1) with 1%nat by reflexivity. replace (exN 2) with 1%nat by reflexivity. replace (exN 3) with 2%nat by reflexivity.
  rewrite !H by (cbn; tauto).
  destruct (F1 0%nat 1%nat 0%nat) as [a b], (F1 0%nat 2%nat 0%nat) as [c d], (F0 0%nat 1%nat 0%nat) as [a0 b0], (F0 0%nat 2%nat 0%nat) as [c0 d0].
  cbv -[Rplus Rmult Ropp Rminus Rdiv R0 R1 IZR Rinv]. rcalc. field.
Qed.
Lemma px_red : forall E F0 F1 r, (forall s t, In s S4 -> In t S4 -> r s t = rmul (px_x s) (CRing.conj (px_x t))) ->
  re (master RRing S4 E 1 (red_lead RRing S4 exN px_T F0 F1) r 0 0) = (2 * (16/25 - 12/25) * im (F1 0%nat 1%nat 0%nat) + 2 * (9/25 - 12/25) * im (F1 0%nat 2%nat 0%nat))%R.
Proof.
  intros E F0 F1 r H. unfold master, red_lead, red_D, op_comm, op_add, op_adj, op_up, op_had, op_mul. cbn [leads seq rsum].
  replace (exN 0) with 0%nat by reflexivity. replace (exN 1) with 1%nat by reflexivity. replace (exN 2) with 1%nat by reflexivity. replace (exN 3) with 2%nat by reflexivity.
  rewrite !H by (cbn; tauto).
  destruct (F1 0%nat 1%nat 0%nat) as [a b], (F1 0%nat 2%nat 0%nat) as [c d], (F0 0%nat 1%nat 0%nat) as [a0 b0], (F0 0%nat 2%nat 0%nat) as [c0 d0].
  cbv -[Rplus Rmult Ropp Rminus Rdiv R0 R1 IZR Rinv]. rcalc. field.
Qed.
Lemma px_herm : KernelGen.hermitian RRing px_T.
Proof.
  intros l a b. destruct a as [|[|[|[|a]]]], b as [|[|[|[|b]]]]; apply cplx_eq; simpl; rcalc; lra.
Qed.
Lemma px_SS : cons_states ex_L = S4.
Proof. reflexivity. Qed.
Lemma px_el : el ex_L 0 0 0.
Proof. repeat split; [lia|vm_compute; tauto|vm_compute; tauto|vm_compute; discriminate]. Qed.
Section Refuted.
Variables (it : nat) (quad : R -> R -> R -> R) (dg : R -> R).
Hypothesis Hit : it <= 3.
Local Notation px_F := (vn1_fct ex_L 1 px_E (fun _ => 0) (fun _ => 1) (fun _ => -100) (fun _ => 100) it quad dg)%R.
Lemma px_layout : layout ex_L.
Proof. exact (system_layout 2 "charge" ex_si ex_L (Nat.lt_0_succ 1) ltac:(discriminate) ex_system). Qed.
Lemma px_F1 : forall c, In c [1; 2]%nat -> im (tab RRing ex_L exN px_F true 0 c 0) = (PI * (1 - fermi_func (px_E c)))%R.
Proof.
  intros c Hc. unfold tab. replace (Z.of_nat (exN 0)) with 0%Z by reflexivity.
  rewrite (vn1_fct_val ex_L px_layout) by (try lia; cbn in Hc; vm_compute; tauto).
  unfold fvn1. pose proof (func_1vN_im quad dg (px_E c - px_E 0) 0 1 (-100) 100 it Hit) as X.
  destruct (func_1vN quad dg (px_E c - px_E 0) 0 1 (-100) 100 it) as [[[c0 c1] e0] e1] eqn:Q. destruct X as (_ & X & _). cbn [pick].
  assert (V : within ((-100 - 0) / 1) ((px_E c - px_E 0 - 0) / 1) ((100 - 0) / 1) = true).
  { unfold within. destruct Hc as [<-|[<-|[]]]; cbn [px_E]; repeat (destruct (Rlt_dec _ _) as [|NL]; [|exfalso; apply NL; lra]); reflexivity. }
  unfold func_pauli in X. rewrite V, Bool.orb_true_r in X. cbn [snd] in X. replace ((px_E c - px_E 0 - 0) / 1)%R with (px_E c) in X by (cbn [px_E]; field).
  change (im c1 = PI * (1 - fermi_func (px_E c)))%R. change (2 * im c1 = 2 * PI * (1 - fermi_func (px_E c)))%R in X. lra.
Qed.
Lemma px_neg : (2 * (16/25 - 12/25) * (PI * (1 - fermi_func 0)) + 2 * (9/25 - 12/25) * (PI * (1 - fermi_func 1)) < 0)%R.
Proof.
  unfold fermi_func, cut. do 2 (destruct (Rlt_dec _ _) as [X|_]; [exfalso; lra|]). rewrite exp_0.
  pose proof (exp_ineq1 1 ltac:(lra)) as G. pose proof PI_RGT_0 as P.
  assert (Y : (1 / (exp 1 + 1) < 1/3)%R). { apply Rmult_lt_reg_r with (exp 1 + 1)%R; [lra|]. unfold Rdiv at 1. rewrite Rmult_assoc, Rinv_l; lra. }
  set (y := (1 / (exp 1 + 1))%R) in *. clearbody y.
  replace (2 * (16 / 25 - 12 / 25) * (PI * (1 - 1 / (1 + 1))) + 2 * (9 / 25 - 12 / 25) * (PI * (1 - y)))%R with (PI * (6/25 * (y - 1/3)))%R by field.
  pose proof (Rmult_lt_compat_l PI (6/25 * (y - 1/3)) 0 P ltac:(lra)). lra.
Qed.
(** the state 0 is empty, the density matrix is positive with trace 1, and the kernels let the occupation of state 0 decrease *)
Theorem C76_vn1_refuted : exists phi v,
  positive (cons_states ex_L) (dens RRing ex_L exN phi) /\ kills (cons_states ex_L) (dens RRing ex_L exN phi) v /\
  (forall s t, In s (cons_states ex_L) -> In t (cons_states ex_L) -> v s <> r0 -> v t <> r0 -> el ex_L s t (Z.of_nat (exN s))) /\
  re (rsum (fun s => dens RRing ex_L exN phi s s) (cons_states ex_L)) = 1%R /\
  (re (form (cons_states ex_L) (rate_of ex_si ex_L (kern_of RRing ex_L (vn1_calls RRing ex_L 1 px_T px_F px_E)) phi) v) < 0)%R /\
  (re (form (cons_states ex_L) (rate_of ex_si ex_L (kern_of RRing ex_L (red_calls RRing ex_L 1 px_T px_F px_E)) phi) v) < 0)%R.
Proof.
  exists px_phi, (delta 0). rewrite px_SS.
  assert (H2 : @radd RRing (1/2)%R (1/2)%R = @r1 RRing) by (rcalc; cbn; field).
  assert (ND : NoDup S4) by (repeat constructor; cbn; intuition discriminate).
  split; [|split; [|split; [|split; [|split]]]].
  - exact (pure_positive S4 px_x _ px_dens).
  - intros s Hs. apply (rsum_0 Cr). intros t Ht. rewrite px_dens by auto. unfold delta. apply px_cases in Ht.
    destruct Ht as [->|[->|[->| ->]]]; apply px_cases in Hs; destruct Hs as [->|[->|[->| ->]]]; apply cplx_eq; cbv -[Rplus Rmult Ropp Rminus Rdiv R0 R1 IZR Rinv]; rcalc; ring.
  - intros s t Hs Ht A B. unfold delta in A, B. destruct (Nat.eqb_spec s 0) as [->|]; [|now destruct A]. destruct (Nat.eqb_spec t 0) as [->|]; [|now destruct B]. exact px_el.
  - cbn [rsum]. rewrite !px_dens by (cbn; tauto). cbv -[Rplus Rmult Ropp Rminus Rdiv R0 R1 IZR Rinv]. rcalc. field.
  - rewrite form_delta by (auto; cbn; tauto). unfold rate_of. replace (Z.of_nat (exN 0)) with 0%Z by reflexivity.
    rewrite (C46_vn1 RRing 2 "charge" ex_si ex_L (Nat.lt_0_succ 1) ltac:(discriminate) ex_system 1 (1/2)%R px_T px_F px_E px_phi 0 0 0 H2 px_herm px_el).
    rewrite px_SS, (px_vn1 px_E _ _ _ px_dens), !px_F1 by (cbn; tauto). exact px_neg.
  - rewrite form_delta by (auto; cbn; tauto). unfold rate_of. replace (Z.of_nat (exN 0)) with 0%Z by reflexivity.
    rewrite (C46_redfield RRing 2 "charge" ex_si ex_L (Nat.lt_0_succ 1) ltac:(discriminate) ex_system 1 (1/2)%R px_T px_F px_E px_phi 0 0 0 H2 px_herm px_el).
    rewrite px_SS, (px_red px_E _ _ _ px_dens), !px_F1 by (cbn; tauto). exact px_neg.
Qed.
End Refuted.
Print Assumptions C76_vn1_refuted.
(** the same amplitudes come from two tleads of amplitude 1; the Lindblad kernel in the same situation *)
Example C76_amplitudes :
  match construct_Tba ZRing (si_init 2 "charge") 1 [((0, 0), ZC 1 0); ((0, 1), ZC 1 0)]%nat zeros with
  | Some T => map (fun a => map (fun b => T (0%nat, a, b)) S4) S4 =
      [[ZC 0 0; ZC 1 0; ZC 1 0; ZC 0 0]; [ZC 1 0; ZC 0 0; ZC 0 0; ZC 1 0]; [ZC 1 0; ZC 0 0; ZC 0 0; ZC (-1) 0]; [ZC 0 0; ZC 1 0; ZC (-1) 0; ZC 0 0]]%Z
  | None => False end.
Proof. vm_compute. reflexivity. Qed.
Example C76_case : forall it, (0 <= re (form (cons_states ex_L) (rate_of ex_si ex_L (kern_of RRing ex_L (lindblad_calls RRing ex_L 1 (1/2)%R
  (lindblad_fct ex_L 1 px_T px_E (fun _ => 0) (fun _ => 1) (fun _ => -100) (fun _ => 100) it) px_E)) px_phi) (delta 0)))%R.
Proof.
  intros it. apply (C76_lindblad 2 "charge" ex_si ex_L (Nat.lt_0_succ 1) ltac:(discriminate) ex_system).
  - exact (pure_positive S4 px_x _ px_dens).
  - rewrite px_SS. intros s Hs. apply (rsum_0 Cr). intros t Ht. rewrite px_dens by auto. unfold delta. apply px_cases in Ht.
    destruct Ht as [->|[->|[->| ->]]]; apply px_cases in Hs; destruct Hs as [->|[->|[->| ->]]]; apply cplx_eq; cbv -[Rplus Rmult Ropp Rminus Rdiv R0 R1 IZR Rinv]; rcalc; ring.
  - intros s t Hs Ht A B. unfold delta in A, B. destruct (Nat.eqb_spec s 0) as [->|]; [|now destruct A]. destruct (Nat.eqb_spec t 0) as [->|]; [|now destruct B]. exact px_el.
Qed.
Example C76_phonons_case : forall it nb tV, (0 <= re (form (cons_states ex_L) (rate_of ex_si ex_L (kern_of RRing ex_L (elph_lindblad_calls RRing ex_L 1 nb (1/2)%R
  (lindblad_fct ex_L 1 px_T px_E (fun _ => 0) (fun _ => 1) (fun _ => -100) (fun _ => 100) it) tV px_E)) px_phi) (delta 0)))%R.
Proof.
  intros it nb tV. apply (C76_phonons 2 "charge" ex_si ex_L (Nat.lt_0_succ 1) ltac:(discriminate) ex_system ex_L2); [exact C30_system|..].
  - exact (pure_positive S4 px_x _ px_dens).
  - rewrite px_SS. intros s Hs. apply (rsum_0 Cr). intros t Ht. rewrite px_dens by auto. unfold delta. apply px_cases in Ht.
    destruct Ht as [->|[->|[->| ->]]]; apply px_cases in Hs; destruct Hs as [->|[->|[->| ->]]]; apply cplx_eq; cbv -[Rplus Rmult Ropp Rminus Rdiv R0 R1 IZR Rinv]; rcalc; ring.
  - intros s t Hs Ht A B. unfold delta in A, B. destruct (Nat.eqb_spec s 0) as [->|]; [|now destruct A]. destruct (Nat.eqb_spec t 0) as [->|]; [|now destruct B]. exact px_el.
Qed.
