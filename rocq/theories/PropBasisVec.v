(** Property C56, continued: two sets of eigenvectors of the same Hamiltonian give tunneling amplitudes that differ by a
    matrix U of the kind the theorems of PropBasisR.v ask for. *)
From Coq Require Import String List Arith Lia ZArith Bool Permutation Ring Reals Lra.
From Verif Require Import Base Bits Indexing IndexingProofs RemoveProofs Binom SsqProofs Qn
  PropIndexing DMIndex DMIndexProofs DMReach PropDMIndex CRing SpecFunc Layout Coherences Kernel KernelProofs Fock Operators OperatorsProofs PropOperators EnergiesProofs
  PropKernel MasterEq PropMaster Rates Rotate RotateProofs PropRotate BasisChange PropBasis.
Import ListNotations.
Open Scope nat_scope.
Local Notation length := List.length.
Local Notation Cr := (Cx RRing).
Add Ring RrV : (rth RRing).
Add Ring CrV : (rth Cr).

Section Vectors.
Local Open Scope rng_scope.
(** the columns of P are eigenvectors of H with the eigenvalues E *)
Definition eigen (m : nat) (H P : nat -> nat -> Cr) (E : nat -> R) : Prop := forall i j, (i < m)%nat -> (j < m)%nat ->
  rsum (fun k => H i k * P k j) (seq 0 m) = @ofR RRing (E j) * P i j.
(** orthonormal columns of the full matrix *)
Lemma columns_unitary : forall n name si v, (1 <= n)%nat -> indexed n name si -> shaped RRing si v -> unitary_columns RRing si v ->
  exists P, full_pmtr RRing si v = Some P /\
    (forall i j, (i < si_nmany si)%nat -> (j < si_nmany si)%nat ->
      rsum (fun k => conj (P k i) * P k j) (seq 0 (si_nmany si)) = PropRotate.delta RRing i j) /\
    (forall i j, (i < si_nmany si)%nat -> (j < si_nmany si)%nat -> charge_of si i <> charge_of si j -> P i j = 0).
Proof.
  intros n name si v Hn HI SH HU. destruct (families RRing n name si Hn HI v SH) as [X xeq cells pre blk V P key CO EP HP BL KE].
  exists P. split; auto. split.
  - intros i j Hi Hj.
    destruct (place_ex _ _ _ _ _ CO i Hi) as (x & a & Hx). destruct (place_ex _ _ _ _ _ CO j Hj) as (y & b & Hy).
    destruct (place_val _ _ _ _ _ _ Hx) as [Ei La]. destruct (place_val _ _ _ _ _ _ Hy) as [Ej Lb].
    rewrite (sum_at RRing X xeq cells pre blk _ CO (fun z c => conj (V z c a) * (if xeq z y then V y c b else 0)) _ x (proj1 Hx)).
    + destruct (xeq x y) as [<-|Hne].
      * rewrite (HU (blk x) (V x)) by (auto; apply BL, Hx). unfold PropRotate.delta.
        destruct (Nat.eqb_spec a b) as [->|Hab].
        -- replace i with j by congruence. now rewrite Nat.eqb_refl.
        -- destruct (Nat.eqb_spec i j) as [->|]; auto. destruct (place_inj _ _ _ _ _ CO _ _ _ _ _ Hx Hy). congruence.
      * rewrite (rsum_0 Cr) by (intros; ring). unfold PropRotate.delta. destruct (Nat.eqb_spec i j) as [->|]; auto.
        destruct (place_inj _ _ _ _ _ CO _ _ _ _ _ Hx Hy). congruence.
    + intros z c Hz Hc. pose proof (place_nth _ _ _ z c Hz Hc) as Hzc.
      rewrite (HP z c _ x a i Hzc Hx), (HP z c _ y b j Hzc Hy).
      destruct (xeq z x) as [->|E1]; [|rewrite conj_0; ring]. destruct (xeq x y) as [->|]; ring.
  - intros i j Hi Hj Hne.
    destruct (place_ex _ _ _ _ _ CO i Hi) as (x & a & Hx). destruct (place_ex _ _ _ _ _ CO j Hj) as (y & b & Hy).
    rewrite (HP x a i y b j Hx Hy). destruct (xeq x y) as [<-|]; auto. exfalso. apply Hne.
    destruct (KE x i (proj1 Hx) (place_in _ _ _ _ _ _ Hx)) as (s1 & C1 & C2).
    destruct (KE x j (proj1 Hx) (place_in _ _ _ _ _ _ Hy)) as (s2 & D1 & D2).
    unfold PropKernel.charge_of. rewrite C1, D1. congruence.
Qed.

Section Two.
Variables (n : nat) (name : string) (si : SI) (L : Lay).
Hypotheses (Hn : (1 <= n)%nat) (HI : indexed n name si).
Local Notation m := (si_nmany si).
Local Notation SS := (cons_states L).
(** every state is considered *)
Hypothesis ALL : Permutation SS (seq 0 m).
(** two sets of eigenvectors of H: orthonormal rows and columns in every block, the same eigenvalues *)
Variables (v v' : Vecs RRing) (P P' H : nat -> nat -> Cr) (E : nat -> R).
Hypotheses (SH : shaped RRing si v) (SH' : shaped RRing si v')
  (R1_ : unitary_rows RRing si v) (R2_ : unitary_rows RRing si v') (C1_ : unitary_columns RRing si v) (C2_ : unitary_columns RRing si v')
  (EP : full_pmtr RRing si v = Some P) (EP' : full_pmtr RRing si v' = Some P')
  (HH : forall i j, conj (H i j) = H j i) (V1 : eigen m H P E) (V2 : eigen m H P' E).
(** the overlaps <new s | old t> *)
Definition overlap (s t : nat) : Cr := rsum (fun k => conj (P' k s) * P k t) (seq 0 m).
Local Notation U := overlap.
Local Notation I := (seq 0 m).

Lemma in_all : forall s, In s SS -> (s < m)%nat.
Proof. intros s Hs. apply (Permutation_in _ ALL) in Hs. apply in_seq in Hs. lia. Qed.
Lemma sums : forall f : nat -> Cr, rsum f SS = rsum f I.
Proof. intros f. apply (rsum_perm Cr). exact ALL. Qed.
Lemma rows_of : forall i j, (i < m)%nat -> (j < m)%nat ->
  rsum (fun k => P i k * conj (P j k)) I = PropRotate.delta RRing i j /\ rsum (fun k => P' i k * conj (P' j k)) I = PropRotate.delta RRing i j.
Proof.
  intros i j Hi Hj. destruct (C21_unitary RRing n name si v Hn HI SH R1_) as (Q & EQ & A).
  destruct (C21_unitary RRing n name si v' Hn HI SH' R2_) as (Q' & EQ' & B).
  assert (Q = P) by congruence. assert (Q' = P') by congruence. subst. auto.
Qed.
Lemma cols_of : forall i j, (i < m)%nat -> (j < m)%nat ->
  rsum (fun k => conj (P k i) * P k j) I = PropRotate.delta RRing i j /\ rsum (fun k => conj (P' k i) * P' k j) I = PropRotate.delta RRing i j.
Proof.
  intros i j Hi Hj. destruct (columns_unitary n name si v Hn HI SH C1_) as (Q & EQ & A & _).
  destruct (columns_unitary n name si v' Hn HI SH' C2_) as (Q' & EQ' & B & _).
  assert (Q = P) by congruence. assert (Q' = P') by congruence. subst. auto.
Qed.
Lemma charges_of : forall i j, (i < m)%nat -> (j < m)%nat -> charge_of si i <> charge_of si j -> P i j = 0 /\ P' i j = 0.
Proof.
  intros i j Hi Hj Hne. destruct (columns_unitary n name si v Hn HI SH C1_) as (Q & EQ & _ & A).
  destruct (columns_unitary n name si v' Hn HI SH' C2_) as (Q' & EQ' & _ & B).
  assert (Q = P) by congruence. assert (Q' = P') by congruence. subst. auto.
Qed.
Lemma lt_in : forall k, In k I -> (k < m)%nat.
Proof. intros k Hk. apply in_seq in Hk. lia. Qed.
Lemma pick_r : forall (f : nat -> Cr) i, (i < m)%nat -> rsum (fun k => f k * PropRotate.delta RRing k i) I = f i.
Proof. intros. now apply (sum_delta RRing). Qed.
Lemma pick_l : forall (f : nat -> Cr) i, (i < m)%nat -> rsum (fun k => f k * PropRotate.delta RRing i k) I = f i.
Proof.
  intros f i Hi. rewrite <- (pick_r f i Hi). apply (rsum_ext Cr). intros k _. unfold PropRotate.delta. now rewrite Nat.eqb_sym.
Qed.
Lemma delta_same : forall s t, BasisChange.delta RRing s t = PropRotate.delta RRing s t.
Proof. reflexivity. Qed.

Lemma overlap_unitary : unitary RRing SS U.
Proof.
  split; intros s t Hs Ht; apply in_all in Hs, Ht; rewrite sums, delta_same.
  - transitivity (rsum (fun p => rsum (fun q => conj (P' p s) * P' q t * rsum (fun u => P p u * conj (P q u)) I) I) I : Cr).
    + transitivity (rsum (fun u => rsum (fun p => rsum (fun q => conj (P' p s) * P' q t * (P p u * conj (P q u))) I) I) I : Cr).
      * apply (rsum_ext Cr). intros u _. unfold overlap. rewrite rsum_conj. rewrite <- (rsum_mul_r Cr). apply (rsum_ext Cr). intros p _.
        rewrite <- (rsum_mul_l Cr). apply (rsum_ext Cr). intros q _. rewrite conj_mul, conj_conj. ring.
      * rewrite (rsum_swap Cr). apply (rsum_ext Cr). intros p _. rewrite (rsum_swap Cr). apply (rsum_ext Cr). intros q _. now rewrite (rsum_mul_l Cr).
    + rewrite <- (proj2 (cols_of s t Hs Ht)). apply (rsum_ext Cr). intros p Hp. apply lt_in in Hp.
      rewrite <- (pick_l (fun q => conj (P' p s) * P' q t) p Hp). apply (rsum_ext Cr). intros q Hq. apply lt_in in Hq. now rewrite (proj1 (rows_of p q Hp Hq)).
  - transitivity (rsum (fun p => rsum (fun q => conj (P p s) * P q t * rsum (fun u => P' p u * conj (P' q u)) I) I) I : Cr).
    + transitivity (rsum (fun u => rsum (fun p => rsum (fun q => conj (P p s) * P q t * (P' p u * conj (P' q u))) I) I) I : Cr).
      * apply (rsum_ext Cr). intros u _. unfold overlap. rewrite rsum_conj. rewrite <- (rsum_mul_r Cr). apply (rsum_ext Cr). intros p _.
        rewrite <- (rsum_mul_l Cr). apply (rsum_ext Cr). intros q _. rewrite conj_mul, conj_conj. ring.
      * rewrite (rsum_swap Cr). apply (rsum_ext Cr). intros p _. rewrite (rsum_swap Cr). apply (rsum_ext Cr). intros q _. now rewrite (rsum_mul_l Cr).
    + rewrite <- (proj1 (cols_of s t Hs Ht)). apply (rsum_ext Cr). intros p Hp. apply lt_in in Hp.
      rewrite <- (pick_l (fun q => conj (P p s) * P q t) p Hp). apply (rsum_ext Cr). intros q Hq. apply lt_in in Hq. now rewrite (proj2 (rows_of p q Hp Hq)).
Qed.
Lemma overlap_energy : forall s t, (s < m)%nat -> (t < m)%nat -> @ofR RRing (E s) * U s t = @ofR RRing (E t) * U s t.
Proof.
  intros s t Hs Ht.
  transitivity (rsum (fun p => rsum (fun q => conj (P' p s) * H p q * P q t) I) I : Cr).
  - unfold overlap. rewrite <- (rsum_mul_l Cr). rewrite (rsum_swap Cr). apply (rsum_ext Cr). intros q Hq. apply lt_in in Hq.
    assert (X : rsum (fun p => conj (P' p s) * H p q) I = @ofR RRing (E s) * conj (P' q s)).
    { transitivity (conj (rsum (fun k => H q k * P' k s) I) : Cr).
      - rewrite rsum_conj. apply (rsum_ext Cr). intros p _. rewrite conj_mul, HH. ring.
      - rewrite (V2 q s Hq Hs). apply cplx_eq; simpl; ring. }
    transitivity (@ofR RRing (E s) * conj (P' q s) * P q t : Cr); [ring|]. rewrite <- X, <- (rsum_mul_r Cr). reflexivity.
  - unfold overlap. rewrite <- (rsum_mul_l Cr). apply (rsum_ext Cr). intros p Hp. apply lt_in in Hp.
    transitivity (conj (P' p s) * (@ofR RRing (E t) * P p t) : Cr); [|ring]. rewrite <- (V1 p t Hp Ht), <- (rsum_mul_l Cr). apply (rsum_ext Cr). intros; ring.
Qed.
Lemma overlap_levels : mixes_equal RRing SS (charge_of si) E U.
Proof.
  intros s t Hs Ht. apply in_all in Hs, Ht.
  destruct (Nat.eq_dec (charge_of si s) (charge_of si t)) as [HN|HN]; [destruct (Req_EM_T (E s) (E t)) as [HE|HE]|].
  - right. auto.
  - left. pose proof (overlap_energy s t Hs Ht) as X.
    assert (G : forall a b x : R, (a <> b)%R -> (a * x = b * x)%R -> x = 0%R).
    { intros a b x Hab Hx. apply (Rmult_eq_reg_l (a - b)); [lra|]. lra. }
    apply cplx_eq; apply (G (E s) (E t)); auto.
    + apply (f_equal (@re RRing)) in X. simpl in X. match type of X with @eq _ ?a ?b => change (@eq R a b) in X end.
      lra.
    + apply (f_equal (@im RRing)) in X. simpl in X. match type of X with @eq _ ?a ?b => change (@eq R a b) in X end.
      lra.
  - left. unfold overlap. apply (rsum_0 Cr). intros k Hk. apply lt_in in Hk.
    destruct (Nat.eq_dec (charge_of si k) (charge_of si t)) as [A|A].
    + rewrite (proj2 (charges_of k s Hk Hs ltac:(congruence))), conj_0. ring.
    + rewrite (proj1 (charges_of k t Hk Ht A)). ring.
Qed.
(** U, unitary, mixes states of the same charge and energy, and relates the two sets of rotated amplitudes *)
Theorem C56_eigenvectors : unitary RRing SS U /\ mixes_equal RRing SS (charge_of si) E U /\
  forall nleads T0 l, (l < nleads)%nat -> exists R R', rotate_Tba RRing si nleads IxLin v T0 l = Some R /\
    rotate_Tba RRing si nleads IxLin v' T0 l = Some R' /\ BasisChange.same RRing SS R' (rot RRing SS U R).
Proof.
  split; [apply overlap_unitary|]. split; [apply overlap_levels|].
  intros nleads T0 l Hl. unfold rotate_Tba. rewrite (proj2 (Nat.ltb_lt _ _) Hl), EP, EP'. cbn [option_map].
  eexists. eexists. split; [reflexivity|]. split; [reflexivity|].
  intros s t Hs Ht. apply in_all in Hs, Ht.
  assert (EL : forall Q i j, ndot RRing m (ct RRing Q) (ndot RRing m (T0 l) Q) i j =
     rsum (fun p => rsum (fun q => conj (Q p i) * T0 l p q * Q q j) I) I).
  { intros Q i j. unfold ndot, ct. apply (rsum_ext Cr). intros p _. rewrite <- (rsum_mul_l Cr). apply (rsum_ext Cr). intros. ring. }
  rewrite EL. unfold rot. rewrite sums. 
  (* sum_u U(s,u) conj(P(p,u)) = conj(P'(p,s)) *)
  assert (G : forall s p, (s < m)%nat -> (p < m)%nat -> rsum (fun u => U s u * conj (P p u)) I = conj (P' p s)).
  { intros a p Ha Hp. transitivity (rsum (fun k => rsum (fun u => conj (P' k a) * (P k u * conj (P p u))) I) I : Cr).
    - rewrite (rsum_swap Cr). apply (rsum_ext Cr). intros u _. unfold overlap. rewrite <- (rsum_mul_r Cr). apply (rsum_ext Cr). intros; ring.
    - rewrite <- (pick_r (fun k => conj (P' k a)) p Hp). apply (rsum_ext Cr). intros k Hk. apply lt_in in Hk. rewrite (rsum_mul_l Cr). f_equal. apply rows_of; auto. }
  assert (G' : forall t q, (t < m)%nat -> (q < m)%nat -> rsum (fun w => P q w * conj (U t w)) I = P' q t).
  { intros a q Ha Hq. rewrite <- (conj_conj RRing (P' q a)), <- (G a q Ha Hq), rsum_conj. apply (rsum_ext Cr). intros u _. rewrite conj_mul, conj_conj. ring. }
  transitivity (rsum (fun p => rsum (fun q => rsum (fun u => U s u * conj (P p u)) I * T0 l p q * rsum (fun w => P q w * conj (U t w)) I) I) I : Cr).
  { apply (rsum_ext Cr). intros p Hp. apply lt_in in Hp. apply (rsum_ext Cr). intros q Hq. apply lt_in in Hq. now rewrite G, G'. }
  symmetry.
  transitivity (rsum (fun u => rsum (fun w => rsum (fun p => rsum (fun q => (U s u * conj (P p u)) * T0 l p q * (P q w * conj (U t w))) I) I) I) I : Cr).
  { apply (rsum_ext Cr). intros u _. rewrite sums. apply (rsum_ext Cr). intros w _. rewrite EL. rewrite <- (rsum_mul_l Cr), <- (rsum_mul_r Cr).
    apply (rsum_ext Cr). intros p _. rewrite <- (rsum_mul_l Cr), <- (rsum_mul_r Cr). apply (rsum_ext Cr). intros; ring. }
  transitivity (rsum (fun p => rsum (fun u => rsum (fun q => rsum (fun w => (U s u * conj (P p u)) * T0 l p q * (P q w * conj (U t w))) I) I) I) I : Cr).
  { symmetry. rewrite (rsum_swap Cr). apply (rsum_ext Cr). intros u _.
    rewrite (rsum_ext Cr _ _ (fun p => rsum (fun w => rsum (fun q => (U s u * conj (P p u)) * T0 l p q * (P q w * conj (U t w))) I) I)) by (intros; apply (rsum_swap Cr)).
    apply (rsum_swap Cr). }
  apply (rsum_ext Cr). intros p _. rewrite (rsum_swap Cr). apply (rsum_ext Cr). intros q _.
  rewrite <- !(rsum_mul_r Cr). apply (rsum_ext Cr). intros u _. rewrite <- (rsum_mul_l Cr). reflexivity.
Qed.
End Two.
(** when every coherence between states of equal charge is stored, no further condition is left *)
Theorem C56_keeps : forall si L E U, (forall s t, In s (cons_states L) -> In t (cons_states L) -> kept si L s t = (charge_of si s =? charge_of si t)%nat) ->
  mixes_equal RRing (cons_states L) (charge_of si) E U -> keeps RRing si L U.
Proof.
  intros si L E U HK ME s t u w Hs Ht Hu Hw. destruct (ME s u Hs Hu) as [A|(A & _)]; auto. destruct (ME t w Ht Hw) as [B|(B & _)]; auto.
  right. right. rewrite !HK by auto. now rewrite A, B.
Qed.
End Vectors.
Print Assumptions C56_eigenvectors.
Print Assumptions C56_keeps.

(** ** Example: H = diag(0, 1, 1, 5) for two levels; the eigenvectors |1>, |2> and (3 |1> + 4 |2>)/5, (-4 |1> + 3 |2>)/5 *)
Local Open Scope R_scope.
Definition vx_v : Vecs RRing := VeCharge RRing (fun _ a b => if Nat.eqb a b then r1 else r0).
Definition vx_v' : Vecs RRing := VeCharge RRing (fun c a b => match c with
  | 1%nat => @mkC RRing (match a, b with 0%nat, 0%nat | 1%nat, 1%nat => 3/5 | 0%nat, 1%nat => -4/5 | 1%nat, 0%nat => 4/5 | _, _ => 0 end) 0
  | _ => if Nat.eqb a b then r1 else r0 end).
Definition vx_E (b : nat) : R := match b with 1%nat | 2%nat => 1 | 3%nat => 5 | _ => 0 end.
Definition vx_H (a b : nat) : Cr := if Nat.eqb a b then @ofR RRing (vx_E a) else r0.
Ltac rcalc := apply cplx_eq; cbv -[Rplus Rmult Ropp Rminus Rdiv R0 R1 IZR Rinv]; match goal with |- @eq _ ?u ?v => change (@eq R u v) end; field_simplify; lra.
Lemma vx_blocks : forall v b w, In (b, w) (blocks_of RRing ex_si (VeCharge RRing v)) -> (b = [0%nat] /\ w = v 0%nat) \/ (b = [1; 2]%nat /\ w = v 1%nat) \/ (b = [3%nat] /\ w = v 2%nat).
Proof. intros v b w H. vm_compute in H. intuition; match goal with H : _ = _ |- _ => inversion H; subst end; auto. Qed.
Lemma two : forall a, (a < 2)%nat -> a = 0%nat \/ a = 1%nat.
Proof. intros; lia. Qed.
Lemma four : forall a, (a < 4)%nat -> a = 0%nat \/ a = 1%nat \/ a = 2%nat \/ a = 3%nat.
Proof. intros; lia. Qed.
Lemma vx_indexed : indexed 2 "charge" ex_si.
Proof. exists []. split; auto. split; [intros k []|vm_compute; reflexivity]. Qed.
Example C56_eigenvectors_case : exists P P', full_pmtr RRing ex_si vx_v = Some P /\ full_pmtr RRing ex_si vx_v' = Some P' /\
  eigen 4 vx_H P vx_E /\ eigen 4 vx_H P' vx_E /\ overlap ex_si P P' 1%nat 2%nat = @mkC RRing (4/5) 0 /\
  unitary RRing (cons_states ex_L) (overlap ex_si P P').
Proof.
  destruct (full_pmtr RRing ex_si vx_v) as [P|] eqn:EP; [|discriminate]. destruct (full_pmtr RRing ex_si vx_v') as [P'|] eqn:EP'; [|discriminate].
  exists P, P'. split; auto. split; auto.
  assert (V : eigen 4 vx_H P vx_E).
  { injection EP as <-. intros i j Hi Hj. apply four in Hi, Hj. repeat (destruct Hi as [-> |Hi]); repeat (destruct Hj as [-> |Hj]); subst; rcalc. }
  assert (V' : eigen 4 vx_H P' vx_E).
  { injection EP' as <-. intros i j Hi Hj. apply four in Hi, Hj. repeat (destruct Hi as [-> |Hi]); repeat (destruct Hj as [-> |Hj]); subst; rcalc. }
  split; auto. split; auto. split.
  { injection EP as <-. injection EP' as <-. rcalc. }
  assert (RC : forall v, v = vx_v \/ v = vx_v' -> unitary_rows RRing ex_si v /\ unitary_columns RRing ex_si v).
  { intros v Hv. split; intros b w Hb a a' Ha Ha'; destruct Hv as [-> | ->]; apply vx_blocks in Hb;
      destruct Hb as [(-> & ->)|[(-> & ->)|(-> & ->)]]; cbn [List.length] in Ha, Ha' |- *;
      try (assert (a = 0%nat) as -> by lia; assert (a' = 0%nat) as -> by lia; rcalc);
      apply two in Ha, Ha'; destruct Ha as [-> | ->]; destruct Ha' as [-> | ->]; rcalc. }
  destruct (RC _ (or_introl eq_refl)) as (A1 & A2). destruct (RC _ (or_intror eq_refl)) as (B1 & B2).
  apply (C56_eigenvectors 2 "charge" ex_si ex_L (le_S _ _ (le_n 1))
    vx_indexed (Permutation_refl _) vx_v vx_v' P P' vx_H vx_E I I A1 B1 A2 B2 EP EP'); auto.
  intros i j. unfold vx_H. rewrite (Nat.eqb_sym j i). destruct (Nat.eqb_spec i j) as [->|]; apply cplx_eq; simpl; match goal with |- @eq _ ?u ?v => change (@eq R u v) end; lra.
Qed.
