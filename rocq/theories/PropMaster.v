(** Properties C46 and C47: the assembled kernels are the master equations, and each lead's current is the
    change of the electron number (energy) which that lead causes. *)
From Coq Require Import String List Arith Lia ZArith Bool Permutation Ring QArith.
From Verif Require Import Base Bits Indexing IndexingProofs RemoveProofs Binom SsqProofs Qn
  PropIndexing DMIndex DMIndexProofs DMReach PropDMIndex CRing Layout Coherences Kernel KernelProofs
  PauliProofs CohProofs CohKernels CohCurrents PropKernel MasterEq.
From Verif Require Export MasterGen.
Import ListNotations.
Open Scope nat_scope.
Local Notation length := List.length.

Section Props.
Variable K : CRing.
Local Notation C := (Cx K).
Local Open Scope rng_scope.
Variables (n : nat) (name : string) (si : SI) (L : Lay).
Hypotheses (Hn : (1 <= n)%nat) (Hix : ix_of name n <> IxSsq) (SY : system n name si L).
Let LO : layout L := system_layout n name si L Hn Hix SY.
Let CH := system_charge n name si L Hn Hix SY.
Local Notation N := (charge_of si).
(** all considered states *)
Local Notation SS := (cons_states L).
Local Notation dens := (dens K L N).
Local Notation tab F q := (tab K L N F q).
Local Notation act := (act K).

Lemma lin_herm : forall h tL phi l, herm_on K L (lindblad_lead K SS N h tL (dens phi) l).
Proof. exact (gen_lin_herm K L LO N CH). Qed.

(** *** C46 *)
Theorem C46_pauli : forall nl pf phi b c, (0 <= c)%Z -> In b (states L c) ->
  act (ly_npauli L) (kern_of K L (pauli_calls K L nl pf)) phi (ind0 L b b c) =
  rsum (fun l => rate_lead K SS N (fun l s t => pf l (ind1 L s t (Z.of_nat (N t))) false)
                                  (fun l s t => pf l (ind1 L s t (Z.of_nat (N t))) true)
                           (fun s => re (dens phi s s)) l b) (leads nl).
Proof. exact (gen46_pauli K L LO N CH). Qed.
Theorem C46_lindblad : forall nl (h : K) tL E phi b bp c, h + h = 1 -> el L b bp c ->
  rho K L (act (ly_ndm0r L) (kern_of K L (lindblad_calls K L nl h tL E)) phi) b bp c =
  master K SS E nl (lindblad_lead K SS N h tL) (dens phi) b bp.
Proof. exact (gen46_lindblad K L LO N CH). Qed.
Theorem C46_vn1 : forall nl (h : K) T F E phi b bp c, h + h = 1 -> hermitian K T -> el L b bp c ->
  rho K L (act (ly_ndm0r L) (kern_of K L (vn1_calls K L nl T F E)) phi) b bp c =
  master K SS E nl (vn1_lead K SS N T (tab F false) (tab F true)) (dens phi) b bp.
Proof. exact (gen46_vn1 K L LO N CH). Qed.
Theorem C46_redfield : forall nl (h : K) T F E phi b bp c, h + h = 1 -> hermitian K T -> el L b bp c ->
  rho K L (act (ly_ndm0r L) (kern_of K L (red_calls K L nl T F E)) phi) b bp c =
  master K SS E nl (red_lead K SS N T (tab F false) (tab F true)) (dens phi) b bp.
Proof. exact (gen46_redfield K L LO N CH). Qed.

(** *** C47 *)
Theorem C47_pauli : forall pf phi E l,
  let dp := rate_lead K SS N (fun l s t => pf l (ind1 L s t (Z.of_nat (N t))) false)
                             (fun l s t => pf l (ind1 L s t (Z.of_nat (N t))) true)
                      (fun s => re (dens phi s s)) l in
  pauli_current K L phi pf l = rsum (fun s => rnat K (N s) * dp s) SS /\
  pauli_energy_current K L phi pf E l = rsum (fun s => E s * dp s) SS.
Proof. exact (gen47_pauli K L LO N CH). Qed.
Theorem C47_vn1 : forall (h : K) T F phi l, h + h = 1 -> hermitian K T ->
  vn1_current K L phi T F l =
  rsum (fun s => rnat K (N s) * re (vn1_lead K SS N T (tab F false) (tab F true) (dens phi) l s s)) SS.
Proof. exact (gen47_vn1 K L LO N CH). Qed.
Theorem C47_redfield : forall (h : K) T F phi l, h + h = 1 -> hermitian K T ->
  red_current K L phi T F l =
  rsum (fun s => rnat K (N s) * re (red_lead K SS N T (tab F false) (tab F true) (dens phi) l s s)) SS.
Proof. exact (gen47_redfield K L LO N CH). Qed.
Theorem C47_lindblad : forall (h : K) tL E phi l, h + h = 1 ->
  let dr := lindblad_lead K SS N h tL (dens phi) l in
  lindblad_current K L phi tL l = rsum (fun s => rnat K (N s) * re (dr s s)) SS /\
  lindblad_energy_current K L phi h tL E l = rsum (fun s => E s * re (dr s s)) SS.
Proof. exact (gen47_lindblad K L LO N CH). Qed.
End Props.
Print Assumptions C46_pauli.
Print Assumptions C46_lindblad.
Print Assumptions C46_vn1.
Print Assumptions C46_redfield.
Print Assumptions C47_pauli.
Print Assumptions C47_lindblad.
Print Assumptions C47_vn1.
Print Assumptions C47_redfield.

(** ** Examples: two levels, 'charge' indexing, two leads, over the rationals *)
Definition cqz (x : Cx ZRing) : Cx QRing := @mkC QRing (qz (re x)) (qz (im x)).
Definition ex_Tq (l a b : nat) : Cx QRing := cqz (ex_T l a b).
Definition ex_Fq (l k : nat) (q : bool) : Cx QRing := cqz (ex_F l k q).
Definition ex_Eq (b : nat) : QRing := qz (ex_EZ b).
Example ex_Tq_herm : hermitian QRing ex_Tq.
Proof.
  intros l a b. pose proof (ex_T_herm l a b) as H. unfold ex_Tq. rewrite <- H. unfold cqz.
  apply cplx_eq; cbn [re im conj]; auto. apply Qcanon.Qc_is_canon.
  change (Qreduction.Qred (- Qreduction.Qred (inject_Z (im (ex_T l a b)))) == Qreduction.Qred (inject_Z (- im (ex_T l a b)))).
  rewrite !Qreduction.Qred_correct. reflexivity.
Qed.
Definition qpair (x : Cx QRing) : Q * Q := (Qcanon.this (re x), Qcanon.this (im x)).
Example C46_el : el ex_L 1 2 1%Z /\ cons_states ex_L = [0; 1; 2; 3].
Proof. split; [|vm_compute; reflexivity]. repeat split; [lia|vm_compute; tauto|vm_compute; tauto|vm_compute; discriminate]. Qed.
Local Notation exN := (charge_of ex_si).
Local Notation exS := (cons_states ex_L).
Example C46_case :
  qpair (rho QRing ex_L (act QRing 6 (kern_of QRing ex_L (vn1_calls QRing ex_L 2 ex_Tq ex_Fq ex_Eq)) ex_phiq) 1 2 1) = (47529, 31603)%Q /\
  qpair (master QRing exS ex_Eq 2 (vn1_lead QRing exS exN ex_Tq (tab QRing ex_L exN ex_Fq false) (tab QRing ex_L exN ex_Fq true))
           (dens QRing ex_L exN ex_phiq) 1 2) = (47529, 31603)%Q /\
  qpair (master QRing exS ex_Eq 2 (red_lead QRing exS exN ex_Tq (tab QRing ex_L exN ex_Fq false) (tab QRing ex_L exN ex_Fq true))
           (dens QRing ex_L exN ex_phiq) 1 2) = (45741, 40999)%Q /\
  qpair (master QRing exS ex_Eq 2 (lindblad_lead QRing exS exN qhalf ex_tL) (dens QRing ex_L exN ex_phiq) 1 2) = (- 1721, - 2173)%Q.
Proof. vm_compute. auto. Qed.
Example C46_pauli_case :
  act ZRing 4 (kern_of ZRing ex_L (pauli_calls ZRing ex_L 2 ex_pf)) ex_phi 1 = 30%Z /\
  map (fun l => rate_lead ZRing exS exN (fun l s t => ex_pf l (ind1 ex_L s t (Z.of_nat (exN t))) false)
     (fun l s t => ex_pf l (ind1 ex_L s t (Z.of_nat (exN t))) true) (fun s => re (dens ZRing ex_L exN ex_phi s s)) l 1) [0; 1]
  = [14; 16]%Z.
Proof. vm_compute. auto. Qed.
Example C47_case :
  map (fun l => Qcanon.this (vn1_current QRing ex_L ex_phiq ex_Tq ex_Fq l)) [0; 1] = [-63744; -67312]%Q /\
  map (fun l => Qcanon.this (lindblad_energy_current QRing ex_L ex_phiq qhalf ex_tL ex_Eq l)) [0; 1] = [8262; 7145]%Q.
Proof. vm_compute. auto. Qed.
