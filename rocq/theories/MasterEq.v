(** The kernels as superoperators: operators on the considered states and the master equations of the
    four first-order approaches, written without indices, gates or block loops. *)
From Coq Require Import String List Arith Lia ZArith Bool Permutation Ring.
From Verif Require Import Base SsqProofs Qn DMIndex DMIndexProofs CRing Layout Kernel KernelProofs PauliProofs CohProofs CohKernels CohCurrents.
Import ListNotations.
Open Scope nat_scope.
Local Notation length := List.length.

(** ** Specification *)
Section Spec.
Variable K : CRing.
Local Notation C := (Cx K).
Local Open Scope rng_scope.
(** the finite set of many-body states, and their electron numbers *)
Variables (S_ : list nat) (N : nat -> nat).
Definition Op := nat -> nat -> C.
Definition op_mul (X Y : Op) : Op := fun s t => rsum (fun u => X s u * Y u t) S_.
Definition op_add (X Y : Op) : Op := fun s t => X s t + Y s t.
Definition op_adj (X : Op) : Op := fun s t => conj (X t s).
Definition op_comm (X Y : Op) : Op := fun s t => op_mul X Y s t - op_mul Y X s t.
Definition op_had (X Y : Op) : Op := fun s t => X s t * Y s t.
Definition op_energy (E : nat -> K) : Op := fun s t => if s =? t then ofR (E s) else 0.
(** the part that adds one electron / removes one electron *)
Definition op_up (X : Op) : Op := fun s t => if N s =? S (N t) then X s t else 0.
Definition op_dn (X : Op) : Op := fun s t => if S (N s) =? N t then X s t else 0.

Variables (E : nat -> K) (nl : nat).
(** Lindblad: -i[H,r] + sum over jump operators A of  A r A^+ - (A^+ A r + r A^+ A)/2 ; h = 1/2 *)
Definition dissipator (h : K) (A r : Op) : Op := fun s t =>
  op_mul (op_mul A r) (op_adj A) s t
  - ofR h * (op_mul (op_mul (op_adj A) A) r s t + op_mul r (op_mul (op_adj A) A) s t).
Definition lindblad_lead (h : K) (tL : nat -> Op) (r : Op) (l : nat) : Op :=
  op_add (dissipator h (op_up (tL l)) r) (dissipator h (op_dn (tL l)) r).
(** 1vN: -i[H,r] - i sum_l [T_l, Phi_l + Phi_l^+],  Phi_l = F0 o (T_l r) + F1 o (r T_l) (electron added) *)
Definition vn1_phi (T : nat -> Op) (F0 F1 : nat -> Op) (r : Op) (l : nat) : Op :=
  op_up (op_add (op_had (F0 l) (op_mul (T l) r)) (op_had (F1 l) (op_mul r (T l)))).
Definition vn1_lead (T : nat -> Op) (F0 F1 : nat -> Op) (r : Op) (l : nat) : Op := fun s t =>
  - Ci K * op_comm (T l) (op_add (vn1_phi T F0 F1 r l) (op_adj (vn1_phi T F0 F1 r l))) s t.
(** Redfield: -i[H,r] - i sum_l [T_l, D_l r + r D_l^+],  D_l = (F0 o T_l)_up + ((F1 o T_l)_up)^+ *)
Definition red_D (T : nat -> Op) (F0 F1 : nat -> Op) (l : nat) : Op :=
  op_add (op_up (op_had (F0 l) (T l))) (op_adj (op_up (op_had (F1 l) (T l)))).
Definition red_lead (T : nat -> Op) (F0 F1 : nat -> Op) (r : Op) (l : nat) : Op := fun s t =>
  - Ci K * op_comm (T l) (op_add (op_mul (red_D T F0 F1 l) r) (op_mul r (op_adj (red_D T F0 F1 l)))) s t.
(** -i[H, r] + the contributions of the leads *)
Definition master (lead : Op -> nat -> Op) (r : Op) : Op := fun s t =>
  - Ci K * op_comm (op_energy E) r s t + rsum (fun l => lead r l s t) (leads nl).
End Spec.

(** ** Proofs *)
Section Proofs.
Variable K : CRing.
Local Notation C := (Cx K).
Local Open Scope rng_scope.
Add Ring KrQ : (rth K).
Add Ring CrQ : (rth (Cx K)).
Variable L : Lay.
Hypothesis LO : layout L.
Variable N : nat -> nat.
Hypothesis HN : forall c b, (0 <= c)%Z -> In b (states L c) -> N b = Z.to_nat c.
Variable phi : Z -> K.
Local Notation rho := (rho K L phi).
Local Notation gval := (gval K L phi).

Definition cons_states : list nat := flat_map (states L) (charges L).
Local Notation SS := cons_states.
(** the density matrix read from phi; zero between different charges *)
Definition dens (b bp : nat) : C := if (N b =? N bp)%nat then rho b bp (Z.of_nat (N b)) else 0.
(** the table entries as operators: F0(c,b) = phi1fct[l, cb, 0] etc. *)
Definition tab (F : nat -> nat -> bool -> C) (q : bool) (l s t : nat) : C := F l (ind1 L s t (Z.of_nat (N t))) q.

Lemma cons_in : forall c b, (0 <= c)%Z -> In b (states L c) -> In b SS.
Proof.
  intros c b Hc Hb. apply in_flat_map. exists c. split; auto. apply charges_in. split; auto. apply (lo_range L LO c b); auto.
Qed.
Lemma cons_block_of : forall b, In b SS -> In b (states L (Z.of_nat (N b))).
Proof.
  intros b H. apply in_flat_map in H. destruct H as (c & Hc & Hb). apply charges_in in Hc.
  rewrite (HN c b) by (auto; lia). now rewrite Z2Nat.id by lia.
Qed.
(** a sum over all states restricted to one electron number is a sum over a block *)
Lemma blk : forall z f, (-1 <= z <= Z.of_nat (ly_ncharge L))%Z ->
  rsum (fun u => if (Z.of_nat (N u) =? z)%Z then f u else 0) SS = (rsum f (states L z) : C).
Proof.
  intros z f Hz. unfold cons_states. rewrite rsum_flat_map.
  rewrite (rsum_ext C _ _ (fun c => if Z.eqb c z then rsum f (states L c) else 0)).
  2:{ intros c Hc. apply charges_in in Hc.
      destruct (Z.eqb_spec c z) as [->|Hne].
      - apply rsum_ext. intros b Hb. rewrite (HN z b) by (auto; lia). rewrite Z2Nat.id by lia. now rewrite Z.eqb_refl.
      - apply rsum_0. intros b Hb. rewrite (HN c b) by (auto; lia). rewrite Z2Nat.id by lia.
        destruct (Z.eqb_spec c z); congruence. }
  destruct (Z.eq_dec z (-1)) as [->|H1]; [|destruct (Z.eq_dec z (Z.of_nat (ly_ncharge L))) as [->|H2]].
  - rewrite (lo_below L LO). apply rsum_0. intros c Hc. apply charges_in in Hc. destruct (Z.eqb_spec c (-1)); auto. lia.
  - rewrite (lo_above L LO). apply rsum_0. intros c Hc. apply charges_in in Hc. destruct (Z.eqb_spec c (Z.of_nat (ly_ncharge L))); auto. lia.
  - rewrite (rsum_single C _ _ _ z).
    + now rewrite Z.eqb_refl.
    + apply charges_nodup.
    + apply charges_in. lia.
    + intros c _ Hne. destruct (Z.eqb_spec c z); congruence.
Qed.

Lemma sum_up1 : forall t c g, (0 <= c)%Z -> In t (states L c) ->
  rsum (fun u => if (N u =? S (N t))%nat then g u else 0) SS = (rsum g (states L (c + 1)) : C).
Proof.
  intros t c g Hc Ht. pose proof (lo_range L LO c t Hc Ht) as R. rewrite <- (blk (c + 1)) by lia. apply rsum_ext.
  intros u Hu. rewrite (HN c t) by auto.
  destruct (Nat.eqb_spec (N u) (S (Z.to_nat c))), (Z.eqb_spec (Z.of_nat (N u)) (c + 1)); auto; lia.
Qed.
Lemma sum_up2 : forall t c g, (0 <= c)%Z -> In t (states L c) ->
  rsum (fun u => if (N t =? S (N u))%nat then g u else 0) SS = (rsum g (states L (c - 1)) : C).
Proof.
  intros t c g Hc Ht. pose proof (lo_range L LO c t Hc Ht) as R. rewrite <- (blk (c - 1)) by lia. apply rsum_ext.
  intros u Hu. rewrite (HN c t) by auto.
  destruct (Nat.eqb_spec (Z.to_nat c) (S (N u))), (Z.eqb_spec (Z.of_nat (N u)) (c - 1)); auto; lia.
Qed.
Lemma mul_dens_r : forall (X : Op K) s t c, (0 <= c)%Z -> In t (states L c) ->
  op_mul K SS X dens s t = rsum (fun u => X s u * rho u t c) (states L c).
Proof.
  intros X s t c Hc Ht. unfold op_mul. pose proof (lo_range L LO c t Hc Ht) as R. rewrite <- (blk c) by lia. apply rsum_ext.
  intros u Hu. unfold dens. rewrite (HN c t) by auto.
  destruct (Nat.eqb_spec (N u) (Z.to_nat c)) as [e|e], (Z.eqb_spec (Z.of_nat (N u)) c) as [e'|e']; try lia; [now rewrite e'|ring].
Qed.
Lemma mul_dens_l : forall (X : Op K) s t c, (0 <= c)%Z -> In s (states L c) ->
  op_mul K SS dens X s t = rsum (fun u => rho s u c * X u t) (states L c).
Proof.
  intros X s t c Hc Ht. unfold op_mul. pose proof (lo_range L LO c s Hc Ht) as R. rewrite <- (blk c) by lia. apply rsum_ext.
  intros u Hu. unfold dens. rewrite (HN c s) by auto.
  destruct (Nat.eqb_spec (Z.to_nat c) (N u)) as [e|e], (Z.eqb_spec (Z.of_nat (N u)) c) as [e'|e']; try lia; [|ring].
  now rewrite Z2Nat.id by auto.
Qed.
Lemma dens_at : forall b bp c, (0 <= c)%Z -> In b (states L c) -> In bp (states L c) -> dens b bp = rho b bp c.
Proof.
  intros b bp c Hc Hb Hbp. unfold dens. rewrite (HN c b), (HN c bp), Nat.eqb_refl, Z2Nat.id by auto. reflexivity.
Qed.
Lemma comm_energy : forall E b bp c, (0 <= c)%Z -> In b (states L c) -> In bp (states L c) ->
  op_comm K SS (op_energy K E) dens b bp = ofR (E b - E bp) * rho b bp c.
Proof.
  intros E b bp c Hc Hb Hbp. unfold op_comm. rewrite (mul_dens_r _ b bp c), (mul_dens_l _ b bp c) by auto. unfold op_energy.
  rewrite (rsum_single C _ _ (states L c) b), (rsum_single C _ _ (states L c) bp); auto; try (apply (lo_nodup L LO); auto).
  - rewrite !Nat.eqb_refl. rewrite of_sub. ring.
  - intros y _ Hy. apply Nat.eqb_neq in Hy. rewrite Hy. ring.
  - intros y _ Hy. apply not_eq_sym, Nat.eqb_neq in Hy. rewrite Hy. ring.
Qed.
(** canonical orders of the sums *)
Lemma canon2 : forall (f : nat -> nat -> nat -> C) r LS X Y,
  rsum (fun x => rsum (fun y => rsum (fun l => f l x y) LS * r x y) Y) X =
  rsum (fun l => rsum (fun x => rsum (fun y => f l x y * r x y) Y) X) LS.
Proof.
  intros. symmetry. rewrite sum_rot3. apply rsum_ext. intros x _. apply rsum_ext. intros y _. apply rsum_mul_r.
Qed.
Lemma canonB : forall (f : nat -> nat -> nat -> C) r LS X Y,
  rsum (fun y => rsum (fun x => rsum (fun l => f l x y) LS) X * r y) Y =
  rsum (fun l => rsum (fun x => rsum (fun y => f l x y * r y) Y) X) LS.
Proof.
  intros. symmetry.
  rewrite (rsum_ext C _ _ (fun l => rsum (fun y => rsum (fun x => f l x y * r y) X) Y) LS) by (intros; apply rsum_swap).
  rewrite sum_rot3. etransitivity; [apply rsum_ext; intros y _; apply rsum_swap|].
  apply rsum_ext. intros y _. rewrite <- rsum_mul_r.
  etransitivity; [|apply rsum_ext; intros x _; apply rsum_mul_r]. rewrite rsum_swap. reflexivity.
Qed.
Lemma herm_at : forall x y c, (0 <= c)%Z -> In x (states L c) -> In y (states L c) -> conj (rho x y c) = rho y x c.
Proof. intros. apply (rho_herm K L LO); auto. Qed.

Lemma gate2 : forall b bp c a ap ac (f : C) b' bp' c' a' ap' ac' (f' : C),
  rsum gval ((if is_included L a ap ac then [CElem K f b bp c a ap ac] else []) ++
             (if is_included L a' ap' ac' then [CElem K f' b' bp' c' a' ap' ac'] else [])) =
  f * rho a ap ac + f' * rho a' ap' ac'.
Proof. intros. rewrite rsum_app. now rewrite !gate1. Qed.

Lemma adj_mul : forall (X Y : Op K) s t, conj (op_mul K SS X Y s t) = op_mul K SS (op_adj K Y) (op_adj K X) t s.
Proof. intros. unfold op_mul, op_adj. rewrite rsum_conj. apply rsum_ext. intros u _. rewrite conj_mul. ring. Qed.
Lemma dens_herm : forall s t, In s SS -> In t SS -> conj (dens s t) = dens t s.
Proof.
  intros s t Hs Ht. unfold dens. rewrite (Nat.eqb_sym (N t)). destruct (Nat.eqb_spec (N s) (N t)) as [e|e]; [|apply conj_0].
  apply cons_block_of in Hs, Ht. rewrite e in *. apply herm_at; auto. lia.
Qed.
Lemma mul_ext : forall (X Y X' Y' : Op K) s t, (forall u, In u SS -> X s u = X' s u) -> (forall u, In u SS -> Y u t = Y' u t) ->
  op_mul K SS X Y s t = op_mul K SS X' Y' s t.
Proof. intros. unfold op_mul. apply rsum_ext. intros u Hu. now rewrite H, H0. Qed.
Lemma mul_assoc : forall X Y Z : Op K, forall s t, op_mul K SS (op_mul K SS X Y) Z s t = op_mul K SS X (op_mul K SS Y Z) s t.
Proof.
  intros X Y Z s t. unfold op_mul.
  rewrite (rsum_ext C _ _ (fun u => rsum (fun v => X s v * Y v u * Z u t) SS)) by (intros; now rewrite rsum_mul_r).
  etransitivity; [apply rsum_swap|]. apply rsum_ext. intros v _. rewrite <- rsum_mul_l. apply rsum_ext. intros u _. ring.
Qed.
Definition herm_on (X : Op K) : Prop := forall s t, In s SS -> In t SS -> conj (X s t) = X t s.
Lemma comm_herm : forall X Y, herm_on X -> herm_on Y -> forall s t, In s SS -> In t SS ->
  conj (- Ci K * op_comm K SS X Y s t) = - Ci K * op_comm K SS X Y t s.
Proof.
  intros X Y HX HY s t Hs Ht. unfold op_comm.
  assert (A : forall X Y, herm_on X -> herm_on Y -> conj (op_mul K SS X Y s t) = op_mul K SS Y X t s).
  { intros X' Y' HX' HY'. rewrite adj_mul. apply mul_ext; intros u Hu; unfold op_adj; auto. }
  rewrite conj_mul. replace (conj (- Ci K)) with (Ci K).
  2:{ apply cplx_eq; cbn [re im conj Ci]; change (re (- Ci K)) with (- (0 : K)); change (im (- Ci K)) with (- (1 : K)); ring. }
  assert (B : conj (op_mul K SS X Y s t - op_mul K SS Y X s t) = op_mul K SS Y X t s - op_mul K SS X Y t s).
  { rewrite <- (A X Y), <- (A Y X) by auto. apply cplx_eq; cbn [re im conj].
    - reflexivity.
    - match goal with |- _ = im (conj ?p - conj ?q) => change (- (im p - im q) = - im p - - im q) end. ring. }
  rewrite B. ring.
Qed.
Lemma energy_herm : forall E, herm_on (op_energy K E).
Proof.
  intros E s t _ _. unfold op_energy. rewrite (Nat.eqb_sym t). destruct (Nat.eqb_spec s t) as [->|]; [|apply conj_0].
  apply cplx_eq; cbn [re im conj ofR]; [reflexivity|ring].
Qed.
Lemma dens_herm_on : herm_on dens.
Proof. intros s t Hs Ht. now apply dens_herm. Qed.
Lemma sym_herm : forall X : Op K, herm_on (op_add K X (op_adj K X)).
Proof. intros X s t _ _. unfold op_add, op_adj. rewrite conj_add, conj_conj. ring. Qed.
Lemma diss_herm : forall h A, herm_on (dissipator K SS h A dens).
Proof.
  intros h A s t Hs Ht. unfold dissipator.
  assert (E1 : conj (op_mul K SS (op_mul K SS A dens) (op_adj K A) s t) = op_mul K SS (op_mul K SS A dens) (op_adj K A) t s).
  { rewrite adj_mul, mul_assoc. apply mul_ext; intros u Hu; [apply conj_conj|].
    unfold op_adj at 1. rewrite adj_mul. apply mul_ext; intros v Hv; auto. unfold op_adj. apply dens_herm; auto. }
  assert (GR : forall s t, In s SS -> In t SS -> conj (op_mul K SS (op_adj K A) A s t) = op_mul K SS (op_adj K A) A t s).
  { intros s' t' _ _. rewrite adj_mul. apply mul_ext; intros u Hu; auto. apply conj_conj. }
  assert (E2 : conj (op_mul K SS (op_mul K SS (op_adj K A) A) dens s t) = op_mul K SS dens (op_mul K SS (op_adj K A) A) t s).
  { rewrite adj_mul. apply mul_ext; intros u Hu; unfold op_adj at 1; [apply dens_herm; auto|apply GR; auto]. }
  assert (E3 : conj (op_mul K SS dens (op_mul K SS (op_adj K A) A) s t) = op_mul K SS (op_mul K SS (op_adj K A) A) dens t s).
  { rewrite adj_mul. apply mul_ext; intros u Hu; unfold op_adj at 1; [apply GR; auto|apply dens_herm; auto]. }
  match goal with |- conj (?x - ?y * (?z + ?w)) = _ =>
    replace (conj (x - y * (z + w))) with (conj x - conj y * (conj z + conj w)) end.
  2:{ rewrite <- conj_add, <- conj_mul. apply cplx_eq; cbn [re im conj]; [reflexivity|].
      match goal with |- im (conj ?p - conj ?q) = _ => change (- im p - - im q = - (im p - im q)) end. ring. }
  rewrite E1, E2, E3. replace (conj (ofR h)) with (ofR h : C); [ring|].
  apply cplx_eq; cbn [re im conj ofR]; [reflexivity|ring].
Qed.

Section Elem.
Variables (b bp : nat) (c : Z).
Hypotheses (Hc : (0 <= c)%Z) (Hb : In b (states L c)) (Hbp : In bp (states L c)).

(** a commutator with a Hermitian operator that changes the electron number by one *)
Lemma comm_up : forall T X : Op K,
  op_comm K SS T (op_add K (op_up K N X) (op_adj K (op_up K N X))) b bp =
  rsum (fun u => T b u * X u bp) (states L (c + 1)) + rsum (fun u => T b u * conj (X bp u)) (states L (c - 1))
  - (rsum (fun u => X b u * T u bp) (states L (c - 1)) + rsum (fun u => conj (X u b) * T u bp) (states L (c + 1))).
Proof.
  intros T X. unfold op_comm, op_mul, op_add, op_adj, op_up.
  rewrite <- (sum_up1 bp c), <- (sum_up2 bp c), <- (sum_up1 b c), <- (sum_up2 b c) by auto.
  rewrite <- !rsum_plus, <- rsum_minus, <- rsum_minus. apply rsum_ext. intros u _.
  destruct (N u =? S (N bp))%nat, (N bp =? S (N u))%nat, (N b =? S (N u))%nat, (N u =? S (N b))%nat; rewrite ?conj_0; ring.
Qed.

Section TF.
Variables (nl : nat) (T : nat -> Op K) (F : nat -> nat -> bool -> C).
Hypothesis HT : forall l a b, conj (T l a b) = T l b a.
Local Notation LS := (leads nl).

Lemma tab_at : forall q l s t z, (0 <= z)%Z -> In t (states L z) -> tab F q l s t = F l (ind1 L s t z) q.
Proof. intros q l s t z Hz Ht. unfold tab. rewrite (HN z t) by auto. now rewrite Z2Nat.id by auto. Qed.

(** the four sums of a commutator for X = F0 o (T r) + F1 o (r T) *)
Local Notation XV l := (op_add K (op_had K (tab F false l) (op_mul K SS (T l) dens)) (op_had K (tab F true l) (op_mul K SS dens (T l)))).
Lemma XV_up : forall l s t z, (0 <= z)%Z -> In t (states L z) -> In s (states L (z + 1)) ->
  XV l s t = F l (ind1 L s t z) false * rsum (fun v => T l s v * rho v t z) (states L z) +
             F l (ind1 L s t z) true * rsum (fun v => rho s v (z + 1) * T l v t) (states L (z + 1)).
Proof.
  intros l s t z Hz Ht Hs. unfold op_add, op_had. rewrite !(tab_at _ _ _ _ z) by auto.
  rewrite (mul_dens_r _ _ _ z), (mul_dens_l _ _ _ (z + 1)) by (auto; lia). reflexivity.
Qed.

Lemma vn1_elem : rsum gval (vn1_coupling K L nl T F b bp c) =
  rsum (fun l => op_comm K SS (T l) (op_add K (vn1_phi K SS N T (tab F false) (tab F true) dens l)
                                              (op_adj K (vn1_phi K SS N T (tab F false) (tab F true) dens l))) b bp) LS.
Proof.
  unfold vn1_phi. etransitivity; [|apply rsum_ext; intros l _; symmetry; apply comm_up].
  unfold vn1_coupling. rewrite !rsum_app, !rsum_flat_map, !rsum_prod.
  match goal with |- ?x + (?y + ?z) = _ => set (A := x); set (B := y); set (D := z) end.
  assert (HA : A = rsum (fun l => rsum (fun u => T l b u * conj (F l (ind1 L bp u (c - 1)) false * rsum (fun v => T l bp v * rho v u (c - 1)) (states L (c - 1)))) (states L (c - 1)) -
                               rsum (fun u => F l (ind1 L b u (c - 1)) false * rsum (fun v => T l b v * rho v u (c - 1)) (states L (c - 1)) * T l u bp) (states L (c - 1))) LS).
  { subst A. etransitivity; [apply rsum_ext; intros a Ha; apply rsum_ext; intros ap Hap; apply gate1|].
    rewrite canon2. apply rsum_ext. intros l _.
    match goal with |- _ = ?x - ?y => set (x0 := x); set (y0 := y) end.
    assert (X0 : x0 = rsum (fun a => rsum (fun ap => T l b a * T l ap bp * conj (F l (ind1 L bp a (c - 1)) false) * rho a ap (c - 1)) (states L (c - 1))) (states L (c - 1))).
    { apply rsum_ext. intros a Ha. pose proof (low_nonneg L LO c a Hc Ha).
      rewrite conj_mul, rsum_conj, <- !rsum_mul_l. apply rsum_ext. intros ap Hap.
      rewrite conj_mul, HT, herm_at by auto. ring. }
    assert (Y0 : y0 = rsum (fun a => rsum (fun ap => T l b a * T l ap bp * F l (ind1 L b ap (c - 1)) false * rho a ap (c - 1)) (states L (c - 1))) (states L (c - 1))).
    { etransitivity; [|apply rsum_swap]. apply rsum_ext. intros ap Hap.
      rewrite <- rsum_mul_l, <- rsum_mul_r. apply rsum_ext. intros a Ha. ring. }
    rewrite X0, Y0, <- rsum_minus. apply rsum_ext. intros a _. rewrite <- rsum_minus. apply rsum_ext. intros ap _. ring. }
  assert (HD : D = rsum (fun l => rsum (fun u => T l b u * (F l (ind1 L u bp c) true * rsum (fun v => rho u v (c + 1) * T l v bp) (states L (c + 1)))) (states L (c + 1)) -
                               rsum (fun u => conj (F l (ind1 L u b c) true * rsum (fun v => rho u v (c + 1) * T l v b) (states L (c + 1))) * T l u bp) (states L (c + 1))) LS).
  { subst D. etransitivity; [apply rsum_ext; intros a Ha; apply rsum_ext; intros ap Hap; apply gate1|].
    rewrite canon2. apply rsum_ext. intros l _.
    match goal with |- _ = ?x - ?y => set (x0 := x); set (y0 := y) end.
    assert (X0 : x0 = rsum (fun a => rsum (fun ap => T l b a * T l ap bp * F l (ind1 L a bp c) true * rho a ap (c + 1)) (states L (c + 1))) (states L (c + 1))).
    { apply rsum_ext. intros a Ha. rewrite <- !rsum_mul_l. apply rsum_ext. intros ap Hap. ring. }
    assert (Y0 : y0 = rsum (fun a => rsum (fun ap => T l b a * T l ap bp * conj (F l (ind1 L ap b c) true) * rho a ap (c + 1)) (states L (c + 1))) (states L (c + 1))).
    { etransitivity; [|apply rsum_swap]. apply rsum_ext. intros ap Hap.
      rewrite conj_mul, rsum_conj, <- rsum_mul_l, <- rsum_mul_r. apply rsum_ext. intros a Ha.
      rewrite conj_mul, HT, herm_at by (auto; lia). ring. }
    rewrite X0, Y0, <- rsum_minus. apply rsum_ext. intros a _. rewrite <- rsum_minus. apply rsum_ext. intros ap _. ring. }
  assert (HB : B = rsum (fun l =>
     rsum (fun u => T l b u * conj (F l (ind1 L bp u (c - 1)) true * rsum (fun v => rho bp v c * T l v u) (states L c))) (states L (c - 1)) +
     rsum (fun u => T l b u * (F l (ind1 L u bp c) false * rsum (fun v => T l u v * rho v bp c) (states L c))) (states L (c + 1)) -
     rsum (fun u => F l (ind1 L b u (c - 1)) true * rsum (fun v => rho b v c * T l v u) (states L c) * T l u bp) (states L (c - 1)) -
     rsum (fun u => conj (F l (ind1 L u b c) false * rsum (fun v => T l u v * rho v b c) (states L c)) * T l u bp) (states L (c + 1))) LS).
  { subst B. etransitivity; [apply rsum_ext; intros v Hv; apply gate2|].
    rewrite rsum_plus.
    etransitivity; [apply f_equal2; (etransitivity; [apply rsum_ext; intros v Hv; match goal with |- (?p + ?q) * ?r = _ => apply (Rdistr_l (rth C) p q r) end|apply rsum_plus])|].
    rewrite !canonB. rewrite <- !rsum_plus. apply rsum_ext. intros l _.
    match goal with |- (?p1 + ?p2) + (?p3 + ?p4) = ?q1 + ?q2 - ?q3 - ?q4 =>
      assert (E1 : p1 = q1); [|assert (E2 : p2 = q2); [|assert (E3 : p3 = - q3); [|assert (E4 : p4 = - q4); [|rewrite E1, E2, E3, E4; ring]]]] end.
    - apply rsum_ext. intros u Hu. rewrite conj_mul, rsum_conj, <- !rsum_mul_l. apply rsum_ext. intros v Hv.
      rewrite conj_mul, HT, herm_at by auto. ring.
    - apply rsum_ext. intros u Hu. rewrite <- !rsum_mul_l. apply rsum_ext. intros v Hv. ring.
    - rewrite <- rsum_opp. apply rsum_ext. intros u Hu. rewrite <- rsum_mul_l, <- rsum_mul_r, <- rsum_opp. apply rsum_ext. intros v Hv. ring.
    - rewrite <- rsum_opp. apply rsum_ext. intros u Hu. rewrite conj_mul, rsum_conj, <- rsum_mul_l, <- rsum_mul_r, <- rsum_opp. apply rsum_ext. intros v Hv.
      rewrite conj_mul, HT, herm_at by auto. ring. }
  rewrite HA, HB, HD. clear A B D HA HB HD. rewrite <- !rsum_plus. apply rsum_ext. intros l _.
  rewrite (rsum_ext C _ (fun u => T l b u * XV l u bp) (fun u => T l b u * (F l (ind1 L u bp c) false * rsum (fun v => T l u v * rho v bp c) (states L c)) +
      T l b u * (F l (ind1 L u bp c) true * rsum (fun v => rho u v (c + 1) * T l v bp) (states L (c + 1)))) (states L (c + 1))).
  2:{ intros u Hu. rewrite (XV_up l u bp c) by auto. ring. }
  rewrite (rsum_ext C _ (fun u => T l b u * conj (XV l bp u)) (fun u => T l b u * conj (F l (ind1 L bp u (c - 1)) false * rsum (fun v => T l bp v * rho v u (c - 1)) (states L (c - 1))) +
      T l b u * conj (F l (ind1 L bp u (c - 1)) true * rsum (fun v => rho bp v c * T l v u) (states L c))) (states L (c - 1))).
  2:{ intros u Hu. pose proof (low_nonneg L LO c u Hc Hu). rewrite (XV_up l bp u (c - 1)), conj_add; auto; replace (c - 1 + 1)%Z with c by lia; auto. ring. }
  rewrite (rsum_ext C _ (fun u => XV l b u * T l u bp) (fun u => F l (ind1 L b u (c - 1)) false * rsum (fun v => T l b v * rho v u (c - 1)) (states L (c - 1)) * T l u bp +
      F l (ind1 L b u (c - 1)) true * rsum (fun v => rho b v c * T l v u) (states L c) * T l u bp) (states L (c - 1))).
  2:{ intros u Hu. pose proof (low_nonneg L LO c u Hc Hu). rewrite (XV_up l b u (c - 1)); auto; replace (c - 1 + 1)%Z with c by lia; auto. ring. }
  rewrite (rsum_ext C _ (fun u => conj (XV l u b) * T l u bp) (fun u => conj (F l (ind1 L u b c) false * rsum (fun v => T l u v * rho v b c) (states L c)) * T l u bp +
      conj (F l (ind1 L u b c) true * rsum (fun v => rho u v (c + 1) * T l v b) (states L (c + 1))) * T l u bp) (states L (c + 1))).
  2:{ intros u Hu. rewrite (XV_up l u b c), conj_add by auto. ring. }
  rewrite !rsum_plus. ring.
Qed.

(** *** Redfield *)
Local Notation DD l := (red_D K N T (tab F false) (tab F true) l).
Local Notation YR l := (op_add K (op_mul K SS (DD l) dens) (op_mul K SS dens (op_adj K (DD l)))).
Definition Yup (l u t : nat) : C :=
  rsum (fun v => F l (ind1 L u v c) false * T l u v * rho v t c) (states L c) +
  rsum (fun v => rho u v (c + 1) * (F l (ind1 L v t c) true * T l v t)) (states L (c + 1)).
Definition Ydn (l u t : nat) : C :=
  rsum (fun v => conj (F l (ind1 L v u (c - 1)) true * T l v u) * rho v t c) (states L c) +
  rsum (fun v => rho u v (c - 1) * conj (F l (ind1 L t v (c - 1)) false * T l t v)) (states L (c - 1)).

Lemma Y_at : forall l u t, In u SS -> In t (states L c) ->
  YR l u t = (if (N u =? S (N t))%nat then Yup l u t else 0) + (if (N t =? S (N u))%nat then Ydn l u t else 0).
Proof.
  intros l u t Hu Ht. unfold op_add at 1. rewrite (mul_dens_r _ u t c) by auto.
  assert (Hub := cons_block_of u Hu).
  rewrite (mul_dens_l _ u t (Z.of_nat (N u))) by (auto; lia).
  unfold red_D, op_adj, op_add, op_up, op_had. rewrite (HN c t) by auto.
  assert (Hv : forall z v, In v (states L (Z.of_nat z)) -> N v = z) by (intros z v H; rewrite (HN (Z.of_nat z) v) by (auto; lia); lia).
  rewrite (rsum_ext C _ _ (fun v => ((if (N u =? S (Z.to_nat c))%nat then tab F false l u v * T l u v else 0) +
      (if (Z.to_nat c =? S (N u))%nat then conj (tab F true l v u * T l v u) else 0)) * rho v t c) (states L c)).
  2:{ intros v Hv'. rewrite (HN c v) by auto. destruct (Z.to_nat c =? S (N u))%nat; rewrite ?conj_0; reflexivity. }
  rewrite (rsum_ext C _ (fun u0 => rho u u0 (Z.of_nat (N u)) * _) (fun v => rho u v (Z.of_nat (N u)) *
      ((if (Z.to_nat c =? S (N u))%nat then conj (tab F false l t v * T l t v) else 0) +
      (if (N u =? S (Z.to_nat c))%nat then tab F true l v t * T l v t else 0))) (states L (Z.of_nat (N u)))).
  2:{ intros v Hv'. rewrite (Hv _ _ Hv'). rewrite conj_add.
      destruct (Z.to_nat c =? S (N u))%nat, (N u =? S (Z.to_nat c))%nat; rewrite ?conj_conj, ?conj_0; reflexivity. }
  unfold Yup, Ydn.
  destruct (Nat.eqb_spec (N u) (S (Z.to_nat c))) as [e|e], (Nat.eqb_spec (Z.to_nat c) (S (N u))) as [e'|e']; try lia.
  - replace (Z.of_nat (N u)) with (c + 1)%Z in * by lia.
    match goal with |- ?x + ?y = (?x' + ?y') + 0 => assert (E1 : x = x'); [|assert (E2 : y = y'); [|rewrite E1, E2; ring]] end.
    + apply rsum_ext. intros v Hv'. rewrite (tab_at _ _ _ _ c) by auto. ring.
    + apply rsum_ext. intros v Hv'. rewrite (tab_at _ _ _ _ c) by auto. ring.
  - assert (Z.of_nat (N u) = c - 1)%Z by lia. rewrite H in *.
    match goal with |- ?x + ?y = 0 + (?x' + ?y') => assert (E1 : x = x'); [|assert (E2 : y = y'); [|rewrite E1, E2; ring]] end.
    + apply rsum_ext. intros v Hv'. rewrite (tab_at _ _ _ _ (c - 1)) by (auto; lia). ring.
    + apply rsum_ext. intros v Hv'. rewrite (tab_at _ _ _ _ (c - 1)) by (auto; lia). ring.
  - rewrite !rsum_0; [ring| |]; intros; ring.
Qed.

Lemma Y_herm : forall l s t, In s SS -> In t SS -> conj (YR l s t) = YR l t s.
Proof.
  intros l s t Hs Ht. unfold op_add. rewrite conj_add, !adj_mul.
  rewrite (mul_ext (op_adj K dens) (op_adj K (DD l)) dens (op_adj K (DD l)) t s); auto.
  2:{ intros u Hu. unfold op_adj. apply dens_herm; auto. }
  rewrite (mul_ext (op_adj K (op_adj K (DD l))) (op_adj K dens) (DD l) dens t s).
  - ring.
  - intros u Hu. unfold op_adj. apply conj_conj.
  - intros u Hu. unfold op_adj. apply dens_herm; auto.
Qed.

Lemma red_comm : forall l, op_comm K SS (T l) (YR l) b bp =
  rsum (fun u => T l b u * Yup l u bp) (states L (c + 1)) + rsum (fun u => T l b u * Ydn l u bp) (states L (c - 1))
  - (rsum (fun u => conj (Yup l u b) * T l u bp) (states L (c + 1)) + rsum (fun u => conj (Ydn l u b) * T l u bp) (states L (c - 1))).
Proof.
  intros l. unfold op_comm. unfold op_mul at 1 4.
  rewrite <- (sum_up1 bp c), <- (sum_up2 bp c), <- (sum_up1 b c), <- (sum_up2 b c) by auto.
  rewrite <- !rsum_plus, <- rsum_minus, <- rsum_minus. apply rsum_ext. intros u Hu.
  rewrite (Y_at l u bp) by auto. rewrite <- (Y_herm l u b) by (auto; apply (cons_in c); auto).
  rewrite (Y_at l u b) by auto. rewrite conj_add.
  destruct (N u =? S (N bp))%nat, (N bp =? S (N u))%nat, (N b =? S (N u))%nat, (N u =? S (N b))%nat; rewrite ?conj_0; ring.
Qed.

Lemma red_elem : rsum gval (red_coupling K L nl T F b bp c) = rsum (fun l => op_comm K SS (T l) (YR l) b bp) LS.
Proof.
  etransitivity; [|apply rsum_ext; intros l _; symmetry; apply red_comm].
  unfold red_coupling. rewrite !rsum_app, !rsum_flat_map, !rsum_prod.
  match goal with |- ?x + (?y + ?z) = _ => set (A := x); set (B := y); set (D := z) end.
  assert (HA : A = rsum (fun l => rsum (fun u => T l b u * rsum (fun v => rho u v (c - 1) * conj (F l (ind1 L bp v (c - 1)) false * T l bp v)) (states L (c - 1))) (states L (c - 1)) -
                               rsum (fun u => conj (rsum (fun v => rho u v (c - 1) * conj (F l (ind1 L b v (c - 1)) false * T l b v)) (states L (c - 1))) * T l u bp) (states L (c - 1))) LS).
  { subst A. etransitivity; [apply rsum_ext; intros a Ha; apply rsum_ext; intros ap Hap; apply gate1|].
    rewrite canon2. apply rsum_ext. intros l _.
    match goal with |- _ = ?x - ?y => set (x0 := x); set (y0 := y) end.
    assert (X0 : x0 = rsum (fun a => rsum (fun ap => T l b a * T l ap bp * conj (F l (ind1 L bp ap (c - 1)) false) * rho a ap (c - 1)) (states L (c - 1))) (states L (c - 1))).
    { apply rsum_ext. intros a Ha. rewrite <- !rsum_mul_l. apply rsum_ext. intros ap Hap. rewrite conj_mul, HT. ring. }
    assert (Y0 : y0 = rsum (fun a => rsum (fun ap => T l b a * T l ap bp * F l (ind1 L b a (c - 1)) false * rho a ap (c - 1)) (states L (c - 1))) (states L (c - 1))).
    { etransitivity; [|apply rsum_swap]. apply rsum_ext. intros ap Hap. pose proof (low_nonneg L LO c ap Hc Hap).
      rewrite rsum_conj, <- rsum_mul_r. apply rsum_ext. intros a Ha. rewrite conj_mul, conj_conj, herm_at by auto. ring. }
    rewrite X0, Y0, <- rsum_minus. apply rsum_ext. intros a _. rewrite <- rsum_minus. apply rsum_ext. intros ap _. ring. }
  assert (HD : D = rsum (fun l => rsum (fun u => T l b u * rsum (fun v => rho u v (c + 1) * (F l (ind1 L v bp c) true * T l v bp)) (states L (c + 1))) (states L (c + 1)) -
                               rsum (fun u => conj (rsum (fun v => rho u v (c + 1) * (F l (ind1 L v b c) true * T l v b)) (states L (c + 1))) * T l u bp) (states L (c + 1))) LS).
  { subst D. etransitivity; [apply rsum_ext; intros a Ha; apply rsum_ext; intros ap Hap; apply gate1|].
    rewrite canon2. apply rsum_ext. intros l _.
    match goal with |- _ = ?x - ?y => set (x0 := x); set (y0 := y) end.
    assert (X0 : x0 = rsum (fun a => rsum (fun ap => T l b a * T l ap bp * F l (ind1 L ap bp c) true * rho a ap (c + 1)) (states L (c + 1))) (states L (c + 1))).
    { apply rsum_ext. intros a Ha. rewrite <- !rsum_mul_l. apply rsum_ext. intros ap Hap. ring. }
    assert (Y0 : y0 = rsum (fun a => rsum (fun ap => T l b a * T l ap bp * conj (F l (ind1 L a b c) true) * rho a ap (c + 1)) (states L (c + 1))) (states L (c + 1))).
    { etransitivity; [|apply rsum_swap]. apply rsum_ext. intros ap Hap.
      rewrite rsum_conj, <- rsum_mul_r. apply rsum_ext. intros a Ha. rewrite !conj_mul, HT, herm_at by (auto; lia). ring. }
    rewrite X0, Y0, <- rsum_minus. apply rsum_ext. intros a _. rewrite <- rsum_minus. apply rsum_ext. intros ap _. ring. }
  assert (HB : B = rsum (fun l =>
     rsum (fun u => T l b u * rsum (fun v => conj (F l (ind1 L v u (c - 1)) true * T l v u) * rho v bp c) (states L c)) (states L (c - 1)) +
     rsum (fun u => T l b u * rsum (fun v => F l (ind1 L u v c) false * T l u v * rho v bp c) (states L c)) (states L (c + 1)) -
     rsum (fun u => conj (rsum (fun v => conj (F l (ind1 L v u (c - 1)) true * T l v u) * rho v b c) (states L c)) * T l u bp) (states L (c - 1)) -
     rsum (fun u => conj (rsum (fun v => F l (ind1 L u v c) false * T l u v * rho v b c) (states L c)) * T l u bp) (states L (c + 1))) LS).
  { subst B. etransitivity; [apply rsum_ext; intros v Hv; apply gate2|].
    rewrite rsum_plus.
    etransitivity; [apply f_equal2; (etransitivity; [apply rsum_ext; intros v Hv; match goal with |- (?p + ?q) * ?r = _ => apply (Rdistr_l (rth C) p q r) end|apply rsum_plus])|].
    rewrite !canonB. rewrite <- !rsum_plus. apply rsum_ext. intros l _.
    match goal with |- (?p1 + ?p2) + (?p3 + ?p4) = ?q1 + ?q2 - ?q3 - ?q4 =>
      assert (E1 : p1 = q1); [|assert (E2 : p2 = q2); [|assert (E3 : p3 = - q3); [|assert (E4 : p4 = - q4); [|rewrite E1, E2, E3, E4; ring]]]] end.
    - apply rsum_ext. intros u Hu. rewrite <- !rsum_mul_l. apply rsum_ext. intros v Hv.
      rewrite conj_mul, HT. ring.
    - apply rsum_ext. intros u Hu. rewrite <- !rsum_mul_l. apply rsum_ext. intros v Hv. ring.
    - rewrite <- rsum_opp. apply rsum_ext. intros u Hu. rewrite rsum_conj, <- rsum_mul_r, <- rsum_opp. apply rsum_ext. intros v Hv.
      rewrite conj_mul, conj_conj, herm_at by auto. ring.
    - rewrite <- rsum_opp. apply rsum_ext. intros u Hu. rewrite rsum_conj, <- rsum_mul_r, <- rsum_opp. apply rsum_ext. intros v Hv.
      rewrite !conj_mul, HT, herm_at by auto. ring. }
  rewrite HA, HB, HD. clear A B D HA HB HD. rewrite <- !rsum_plus. apply rsum_ext. intros l _.
  unfold Yup, Ydn.
  rewrite (rsum_ext C _ (fun u => T l b u * (_ + _)) (fun u => T l b u * rsum (fun v => F l (ind1 L u v c) false * T l u v * rho v bp c) (states L c) +
    T l b u * rsum (fun v => rho u v (c + 1) * (F l (ind1 L v bp c) true * T l v bp)) (states L (c + 1))) (states L (c + 1))) by (intros; ring).
  rewrite (rsum_ext C _ (fun u => T l b u * (_ + _)) (fun u => T l b u * rsum (fun v => conj (F l (ind1 L v u (c - 1)) true * T l v u) * rho v bp c) (states L c) +
    T l b u * rsum (fun v => rho u v (c - 1) * conj (F l (ind1 L bp v (c - 1)) false * T l bp v)) (states L (c - 1))) (states L (c - 1))) by (intros; ring).
  rewrite (rsum_ext C _ (fun u => conj (_ + _) * T l u bp) (fun u => conj (rsum (fun v => F l (ind1 L u v c) false * T l u v * rho v b c) (states L c)) * T l u bp +
    conj (rsum (fun v => rho u v (c + 1) * (F l (ind1 L v b c) true * T l v b)) (states L (c + 1))) * T l u bp) (states L (c + 1))) by (intros; rewrite conj_add; ring).
  rewrite (rsum_ext C _ (fun u => conj (_ + _) * T l u bp) (fun u => conj (rsum (fun v => conj (F l (ind1 L v u (c - 1)) true * T l v u) * rho v b c) (states L c)) * T l u bp +
    conj (rsum (fun v => rho u v (c - 1) * conj (F l (ind1 L b v (c - 1)) false * T l b v)) (states L (c - 1))) * T l u bp) (states L (c - 1))) by (intros; rewrite conj_add; ring).
  rewrite !rsum_plus. ring.
Qed.
End TF.

(** *** Lindblad *)
Lemma dn_up : forall (X : Op K) s t, op_dn K N X s t = if (N t =? S (N s))%nat then X s t else 0.
Proof. intros. unfold op_dn. now rewrite Nat.eqb_sym. Qed.
Lemma sand_up : forall X : Op K, op_mul K SS (op_mul K SS (op_up K N X) dens) (op_adj K (op_up K N X)) b bp =
  rsum (fun a => rsum (fun ap => X b a * rho a ap (c - 1) * conj (X bp ap)) (states L (c - 1))) (states L (c - 1)).
Proof.
  intros X. unfold op_mul at 1.
  rewrite (rsum_ext C _ _ (fun v => if (N bp =? S (N v))%nat then op_mul K SS (op_up K N X) dens b v * conj (X bp v) else 0)).
  2:{ intros v _. unfold op_adj, op_up at 2. destruct (N bp =? S (N v))%nat; rewrite ?conj_0; ring. }
  rewrite (sum_up2 bp c) by auto. etransitivity; [|apply rsum_swap]. apply rsum_ext. intros v Hv.
  pose proof (low_nonneg L LO c v Hc Hv). rewrite (mul_dens_r _ b v (c - 1)) by auto. rewrite <- rsum_mul_r. apply rsum_ext.
  intros u Hu. unfold op_up. rewrite (HN c b), (HN (c - 1)%Z u) by auto.
  destruct (Nat.eqb_spec (Z.to_nat c) (S (Z.to_nat (c - 1)))); [ring|lia].
Qed.
Lemma sand_dn : forall X : Op K, op_mul K SS (op_mul K SS (op_dn K N X) dens) (op_adj K (op_dn K N X)) b bp =
  rsum (fun a => rsum (fun ap => X b a * rho a ap (c + 1) * conj (X bp ap)) (states L (c + 1))) (states L (c + 1)).
Proof.
  intros X. unfold op_mul at 1.
  rewrite (rsum_ext C _ _ (fun v => if (N v =? S (N bp))%nat then op_mul K SS (op_dn K N X) dens b v * conj (X bp v) else 0)).
  2:{ intros v _. unfold op_adj. rewrite (dn_up X bp v). destruct (N v =? S (N bp))%nat; rewrite ?conj_0; ring. }
  rewrite (sum_up1 bp c) by auto. etransitivity; [|apply rsum_swap]. apply rsum_ext. intros v Hv.
  rewrite (mul_dens_r _ b v (c + 1)) by (auto; lia). rewrite <- rsum_mul_r. apply rsum_ext.
  intros u Hu. rewrite dn_up. rewrite (HN c b), (HN (c + 1)%Z u) by (auto; lia).
  destruct (Nat.eqb_spec (Z.to_nat (c + 1)) (S (Z.to_nat c))); [ring|lia].
Qed.
Lemma gram_up : forall (X : Op K) s t, In s (states L c) -> In t (states L c) ->
  op_mul K SS (op_adj K (op_up K N X)) (op_up K N X) s t = rsum (fun w => conj (X w s) * X w t) (states L (c + 1)).
Proof.
  intros X s t Hs Ht. unfold op_mul. rewrite <- (sum_up1 s c) by auto. apply rsum_ext. intros w _.
  unfold op_adj, op_up. rewrite (HN c s), (HN c t) by auto. destruct (N w =? S (Z.to_nat c))%nat; rewrite ?conj_0; ring.
Qed.
Lemma gram_dn : forall (X : Op K) s t, In s (states L c) -> In t (states L c) ->
  op_mul K SS (op_adj K (op_dn K N X)) (op_dn K N X) s t = rsum (fun w => conj (X w s) * X w t) (states L (c - 1)).
Proof.
  intros X s t Hs Ht. unfold op_mul. rewrite <- (sum_up2 s c) by auto. apply rsum_ext. intros w _.
  unfold op_adj. rewrite !dn_up. rewrite (HN c s), (HN c t) by auto. destruct (Z.to_nat c =? S (N w))%nat; rewrite ?conj_0; ring.
Qed.

Lemma lin_elem : forall nl h (tL : nat -> Op K),
  rsum gval (lindblad_coupling K L nl h tL b bp c) = Ci K * rsum (fun l => lindblad_lead K SS N h tL dens l b bp) (leads nl).
Proof.
  intros nl h tL.
  assert (R : forall l, lindblad_lead K SS N h tL dens l b bp =
    rsum (fun a => rsum (fun ap => tL l b a * rho a ap (c - 1) * conj (tL l bp ap)) (states L (c - 1))) (states L (c - 1)) +
    rsum (fun a => rsum (fun ap => tL l b a * rho a ap (c + 1) * conj (tL l bp ap)) (states L (c + 1))) (states L (c + 1)) +
    rsum (fun w => rsum (fun v => - ofR h * conj (tL l w b) * tL l w v * rho v bp c) (states L c)) (states L (c - 1)) +
    rsum (fun w => rsum (fun v => - ofR h * conj (tL l w b) * tL l w v * rho v bp c) (states L c)) (states L (c + 1)) +
    rsum (fun w => rsum (fun v => - ofR h * conj (tL l w v) * tL l w bp * rho b v c) (states L c)) (states L (c - 1)) +
    rsum (fun w => rsum (fun v => - ofR h * conj (tL l w v) * tL l w bp * rho b v c) (states L c)) (states L (c + 1))).
  { intros l. unfold lindblad_lead, op_add, dissipator. rewrite sand_up, sand_dn.
    rewrite !(mul_dens_r _ b bp c), !(mul_dens_l _ b bp c) by auto.
    assert (G1 : forall Q G, (forall s t, In s (states L c) -> In t (states L c) -> G s t = rsum (fun w => conj (tL l w s) * tL l w t) Q) ->
       rsum (fun w => rsum (fun v => - ofR h * conj (tL l w b) * tL l w v * rho v bp c) (states L c)) Q =
       - ofR h * rsum (fun u => G b u * rho u bp c) (states L c)).
    { intros Q G HG. etransitivity; [apply rsum_swap|]. rewrite <- rsum_mul_l. apply rsum_ext. intros v Hv.
      rewrite HG by auto. rewrite <- rsum_mul_r, <- rsum_mul_l. apply rsum_ext. intros w _. ring. }
    assert (G2 : forall Q G, (forall s t, In s (states L c) -> In t (states L c) -> G s t = rsum (fun w => conj (tL l w s) * tL l w t) Q) ->
       rsum (fun w => rsum (fun v => - ofR h * conj (tL l w v) * tL l w bp * rho b v c) (states L c)) Q =
       - ofR h * rsum (fun u => rho b u c * G u bp) (states L c)).
    { intros Q G HG. etransitivity; [apply rsum_swap|]. rewrite <- rsum_mul_l. apply rsum_ext. intros v Hv.
      rewrite HG by auto. rewrite <- !rsum_mul_l. apply rsum_ext. intros w _. ring. }
    rewrite (G1 _ _ (gram_up (tL l))), (G1 _ _ (gram_dn (tL l))), (G2 _ _ (gram_up (tL l))), (G2 _ _ (gram_dn (tL l))). ring. }
  rewrite (rsum_ext C _ _ _ (leads nl) (fun l _ => R l)). clear R.
  unfold lindblad_coupling. rewrite !rsum_app, !rsum_flat_map, !rsum_prod. rewrite !rsum_plus.
  match goal with |- ?x + (?y + ?z) = ?i * (?p + ?q + ?b1 + ?b2 + ?b3 + ?b4) =>
    assert (HA : x = i * p); [|assert (HD : z = i * q); [|assert (HB : y = i * (b1 + b2 + b3 + b4)); [|rewrite HA, HD, HB; ring]]] end.
  - etransitivity; [apply rsum_ext; intros a Ha; apply rsum_ext; intros ap Hap; apply gate1|].
    rewrite (rsum_ext C _ _ (fun a => rsum (fun ap => rsum (fun l => Ci K * (tL l b a * conj (tL l bp ap))) (leads nl) * rho a ap (c - 1)) (states L (c - 1)))).
    2:{ intros a _. apply rsum_ext. intros ap _. now rewrite rsum_mul_l. }
    rewrite canon2, <- rsum_mul_l. apply rsum_ext. intros l _. rewrite <- rsum_mul_l. apply rsum_ext. intros a _.
    rewrite <- rsum_mul_l. apply rsum_ext. intros ap _. ring.
  - etransitivity; [apply rsum_ext; intros a Ha; apply rsum_ext; intros ap Hap; apply gate1|].
    rewrite (rsum_ext C _ _ (fun a => rsum (fun ap => rsum (fun l => Ci K * (tL l b a * conj (tL l bp ap))) (leads nl) * rho a ap (c + 1)) (states L (c + 1)))).
    2:{ intros a _. apply rsum_ext. intros ap _. now rewrite rsum_mul_l. }
    rewrite canon2, <- rsum_mul_l. apply rsum_ext. intros l _. rewrite <- rsum_mul_l. apply rsum_ext. intros a _.
    rewrite <- rsum_mul_l. apply rsum_ext. intros ap _. ring.
  - etransitivity; [apply rsum_ext; intros v Hv; apply gate2|].
    rewrite rsum_plus.
    rewrite (rsum_ext C _ (fun v => Ci K * (_ + _) * rho v bp c) (fun v => Ci K * (
       rsum (fun a => rsum (fun l => - ofR h * conj (tL l a b) * tL l a v) (leads nl)) (states L (c - 1)) * rho v bp c +
       rsum (fun a => rsum (fun l => - ofR h * conj (tL l a b) * tL l a v) (leads nl)) (states L (c + 1)) * rho v bp c)) (states L c)) by (intros; ring).
    rewrite (rsum_ext C _ (fun v => Ci K * (_ + _) * rho b v c) (fun v => Ci K * (
       rsum (fun a => rsum (fun l => - ofR h * conj (tL l a v) * tL l a bp) (leads nl)) (states L (c - 1)) * rho b v c +
       rsum (fun a => rsum (fun l => - ofR h * conj (tL l a v) * tL l a bp) (leads nl)) (states L (c + 1)) * rho b v c)) (states L c)) by (intros; ring).
    rewrite !rsum_mul_l, !rsum_plus, !canonB. ring.
Qed.

End Elem.

Lemma i_mi : forall x : C, Ci K * (- Ci K * x) = x.
Proof.
  intros x. assert (CC : - Ci K * Ci K = 1).
  { apply cplx_eq; [rewrite re_mul|rewrite im_mul]; cbn [Ci re im]; change (re (- Ci K)) with (- (0 : K));
    change (im (- Ci K)) with (- (1 : K)); [change (re (1 : C)) with (1 : K)|change (im (1 : C)) with (0 : K)]; ring. }
  transitivity ((- Ci K * Ci K) * x); [ring|]. rewrite CC. ring.
Qed.

Section Whole.
Variables (nl : nat) (E : nat -> K) (cpl : nat -> nat -> Z -> list (call K)) (h : K) (lead : Op K -> nat -> Op K).
Hypothesis Hh : h + h = 1.
Hypothesis CPL : forall b bp c x, el L b bp c -> In x (cpl b bp c) -> call_ok K L b bp c x /\
  (match x with CEnergy _ _ _ _ _ => False | _ => True end).
Hypothesis ELEM : forall b bp c, el L b bp c ->
  rsum gval (cpl b bp c) = Ci K * rsum (fun l => lead dens l b bp) (leads nl).
Hypothesis HERM : forall l, herm_on (lead dens l).
Local Notation kern := (kern_of K L (generate_kern K L E cpl)).
Local Notation MA := (master K SS E nl lead dens).

Lemma master_herm : herm_on MA.
Proof.
  intros s t Hs Ht. unfold master. rewrite conj_add, (comm_herm _ _ (energy_herm E) dens_herm_on s t Hs Ht), rsum_conj.
  f_equal. apply rsum_ext. intros l _. apply HERM; auto.
Qed.

Theorem kernel_is_master : forall b bp c, el L b bp c ->
  Kernel.rho K L (act K (ly_ndm0r L) kern phi) b bp c = MA b bp.
Proof.
  assert (U : forall b bp c, el L b bp c -> uniq L b bp c = true ->
    Kernel.rho K L (act K (ly_ndm0r L) kern phi) b bp c = MA b bp).
  { intros b bp c EL UQ. pose proof EL as (Hc & Hb & Hbp & Hi).
    destruct (kernel_rows K L LO phi E cpl CPL b bp c EL UQ) as [R1 R2].
    destruct (rho_el K L (act K (ly_ndm0r L) kern phi) b bp c EL) as [P1 P2].
    assert (GM : - Ci K * G K L phi E cpl b bp c = MA b bp).
    { unfold G, master. rewrite (comm_energy E b bp c) by auto. rewrite (ELEM b bp c) by auto.
      assert (CC : - Ci K * Ci K = 1).
      { apply cplx_eq; [rewrite re_mul|rewrite im_mul]; cbn [Ci re im]; change (re (- Ci K)) with (- (0 : K));
        change (im (- Ci K)) with (- (1 : K)); [change (re (1 : C)) with (1 : K)|change (im (1 : C)) with (0 : K)]; ring. }
      match goal with |- - Ci K * (?x + Ci K * ?y) = _ => transitivity (- Ci K * x + (- Ci K * Ci K) * y) end; [ring|].
      rewrite CC. ring. }
    assert (RI : re (MA b bp) = im (G K L phi E cpl b bp c) /\ im (MA b bp) = - re (G K L phi E cpl b bp c)).
    { rewrite <- GM. split; [rewrite re_mul|rewrite im_mul]; cbn [Ci re im]; change (re (- Ci K)) with (- (0 : K));
      change (im (- Ci K)) with (- (1 : K)); ring. }
    destruct RI as [RE IM].
    apply cplx_eq; [rewrite P1, R1; auto|]. rewrite P2.
    destruct (el_cases L LO b bp c EL) as [(Hbb & A & B)|(Hne & A & B)]; rewrite B.
    - subst bp. assert (Hs : In b SS) by (apply (cons_in c); auto).
      pose proof (f_equal (@im K) (master_herm b b Hs Hs)) as HM. cbn [im conj] in HM.
      set (x := im (MA b b)) in *. symmetry. transitivity ((h + h) * x); [rewrite Hh; ring|].
      transitivity (h * (x + x)); [ring|]. rewrite <- HM at 1. ring.
    - destruct (lo_off L LO b bp c Hc Hb Hbp Hne) as (_ & H). destruct (H Hi) as (_ & _ & C1 & _).
      rewrite C1, UQ, R2 by auto. rewrite IM. ring. }
  intros b bp c EL. destruct (uniq L b bp c) eqn:UQ; [now apply U|].
  pose proof EL as (Hc & Hb & Hbp & Hi).
  destruct (Nat.eq_dec b bp) as [<-|Hne].
  { destruct (lo_diag L LO b c Hc Hb) as (_ & X & _). congruence. }
  destruct (lo_off L LO b bp c Hc Hb Hbp Hne) as (EQ & H). destruct (H Hi) as (_ & U2 & _). rewrite UQ in U2.
  assert (EL2 : el L bp b c) by (repeat split; auto; congruence).
  rewrite <- (rho_herm K L LO _ bp b c) by auto. rewrite (U bp b c EL2 U2). apply master_herm; apply (cons_in c); auto.
Qed.
End Whole.
End Proofs.
