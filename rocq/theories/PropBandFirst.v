(** Property C68: band widths cancel in the 1vN and Redfield approaches when the principal values are
    approximated by digamma functions (itype=1). *)
From Coq Require Import String List Arith Lia ZArith Bool Permutation Ring Reals Lra.
From Verif Require Import Base Bits Indexing IndexingProofs RemoveProofs Binom SsqProofs Qn
  PropIndexing DMIndex DMIndexProofs DMReach PropDMIndex CRing SpecFunc Layout Coherences Kernel KernelProofs
  PauliProofs CohProofs CohKernels CohCurrents KernelGen MasterEq MasterGen.
Import ListNotations.
Open Scope nat_scope.
Local Notation length := List.length.

(** ** Any ring *)
Section Band.
Variable K : CRing.
Local Notation C := (Cx K).
Local Open Scope rng_scope.
Add Ring KrBF : (rth K).
Add Ring CrBF : (rth (Cx K)).
Variable L : Lay.
Hypothesis LO : layout L.
Variable N : nat -> nat.
Hypothesis CH : forall c b, (0 <= c)%Z -> In b (states L c) -> N b = Z.to_nat c.
Local Notation SS := (cons_states L).
Local Notation mul := (op_mul K SS).
Local Notation comm := (op_comm K SS).
Variables (nl : nat) (T : nat -> Op K) (g : nat -> C).
Hypothesis HT : hermitian K T.
(** the amplitudes change the number of electrons by one, and the square of each lead's operator is a number *)
Hypothesis SEL : forall l s t, (l < nl)%nat -> In s SS -> In t SS -> N s <> S (N t) -> N t <> S (N s) -> T l s t = 0.
Hypothesis SQ : forall l s t, (l < nl)%nat -> In s SS -> In t SS -> mul (T l) (T l) s t = if s =? t then g l else 0.
Variable phi : Z -> K.
Local Notation r := (dens K L N phi).
Lemma r_diag : forall s t, N s <> N t -> r s t = 0.
Proof. intros s t H. unfold dens. destruct (Nat.eqb_spec (N s) (N t)); [contradiction|reflexivity]. Qed.
Lemma r_herm : forall s t, In s SS -> In t SS -> conj (r s t) = r t s.
Proof. intros. apply (dens_herm K L LO N CH phi); auto. Qed.

Definition Q (l : nat) : Op K := fun s t => mul (T l) r s t + mul r (T l) s t.

Lemma SS_nodup : NoDup SS.
Proof.
  unfold cons_states, charges. assert (G : forall l, NoDup l -> NoDup (flat_map (states L) (map Z.of_nat l))).
  { induction l as [|c l IH]; intros ND; [constructor|]. inversion ND as [|? ? X Y]; subst. cbn [map flat_map].
    apply NoDup_app_intro; auto.
    - apply (lo_nodup L LO). lia.
    - intros i A B. apply in_flat_map in B. destruct B as (q & Hq & B). apply in_map_iff in Hq. destruct Hq as (c' & <- & Hc').
      pose proof (lo_same L LO (Z.of_nat c) (Z.of_nat c') i ltac:(lia) ltac:(lia) A B). assert (c = c') by lia. congruence. }
  apply G, seq_NoDup.
Qed.
Lemma Q_herm : forall l s t, In s SS -> In t SS -> conj (Q l s t) = Q l t s.
Proof.
  intros l s t Hs Ht. unfold Q. rewrite conj_add, !(adj_mul K L).
  assert (A : mul (op_adj K r) (op_adj K (T l)) t s = mul r (T l) t s).
  { apply (mul_ext K L); intros u Hu; unfold op_adj; [apply r_herm; auto|apply HT]. }
  assert (B : mul (op_adj K (T l)) (op_adj K r) t s = mul (T l) r t s).
  { apply (mul_ext K L); intros u Hu; unfold op_adj; [apply HT|apply r_herm; auto]. }
  rewrite A, B. ring.
Qed.
Lemma Tr_odd : forall l s t, (l < nl)%nat -> In s SS -> In t SS -> N s <> S (N t) -> N t <> S (N s) ->
  mul (T l) r s t = 0 /\ mul r (T l) s t = 0.
Proof.
  intros l s t Hl Hs Ht A B. split; unfold op_mul; apply (rsum_0 C); intros u Hu.
  - destruct (Nat.eq_dec (N u) (N t)) as [e|e]; [rewrite SEL by (auto; lia)|rewrite r_diag by auto]; ring.
  - destruct (Nat.eq_dec (N s) (N u)) as [e|e]; [rewrite SEL by (auto; lia)|rewrite r_diag by auto]; ring.
Qed.
Lemma mul_add_r : forall X Y Z s t, mul X (fun a b => Y a b + Z a b) s t = mul X Y s t + mul X Z s t.
Proof. intros. unfold op_mul. rewrite <- rsum_plus. apply rsum_ext. intros. ring. Qed.
Lemma mul_add_l : forall X Y Z s t, mul (fun a b => Y a b + Z a b) X s t = mul Y X s t + mul Z X s t.
Proof. intros. unfold op_mul. rewrite <- rsum_plus. apply rsum_ext. intros. ring. Qed.
Lemma mul_scal_r : forall (k : C) X Y s t, mul X (fun a b => k * Y a b) s t = k * mul X Y s t.
Proof. intros. unfold op_mul. rewrite <- rsum_mul_l. apply rsum_ext. intros. ring. Qed.
Lemma mul_scal_l : forall (k : C) X Y s t, mul (fun a b => k * Y a b) X s t = k * mul Y X s t.
Proof. intros. unfold op_mul. rewrite <- rsum_mul_l. apply rsum_ext. intros. ring. Qed.
Lemma delta_sum : forall (f : nat -> C) s, In s SS -> rsum (fun u => (if s =? u then f u else 0)) SS = f s.
Proof.
  intros f s Hs. rewrite (rsum_single C _ _ SS s SS_nodup Hs); [now rewrite Nat.eqb_refl|].
  intros u _ Hne. destruct (Nat.eqb_spec s u); congruence.
Qed.
(** [T, {T, r}] = [T^2, r] = 0 *)
Lemma Q_comm : forall l s t, (l < nl)%nat -> In s SS -> In t SS -> comm (T l) (Q l) s t = 0.
Proof.
  intros l s t Hl Hs Ht. unfold op_comm, Q. rewrite mul_add_r, mul_add_l.
  rewrite <- !(mul_assoc K L (T l)). rewrite (mul_assoc K L r (T l) (T l)).
  assert (A : mul (mul (T l) (T l)) r s t = g l * r s t).
  { transitivity (rsum (fun u => if s =? u then g l * r u t else 0) SS : C); [|apply (delta_sum (fun u => g l * r u t)); auto].
    unfold op_mul at 1. apply rsum_ext. intros u Hu. rewrite SQ by auto. destruct (s =? u); ring. }
  assert (B : mul r (mul (T l) (T l)) s t = g l * r s t).
  { transitivity (rsum (fun u => if t =? u then g l * r s u else 0) SS : C); [|apply (delta_sum (fun u => g l * r s u)); auto].
    unfold op_mul at 1. apply rsum_ext. intros u Hu. rewrite SQ by auto. rewrite (Nat.eqb_sym u t). destruct (t =? u); ring. }
  rewrite A, B. ring.
Qed.

(** *** The tables change by a real number for each lead *)
Section Shift.
Variables (F0 F1 F0' F1' : nat -> Op K) (kap : nat -> C).
Hypothesis KR : forall l, conj (kap l) = kap l.
Hypotheses (S0 : forall l s t, (l < nl)%nat -> In s SS -> In t SS -> N s = S (N t) -> F0' l s t = F0 l s t + kap l)
  (S1 : forall l s t, (l < nl)%nat -> In s SS -> In t SS -> N s = S (N t) -> F1' l s t = F1 l s t + kap l).

Lemma phi_shift : forall l s t, (l < nl)%nat -> In s SS -> In t SS ->
  op_add K (vn1_phi K SS N T F0' F1' r l) (op_adj K (vn1_phi K SS N T F0' F1' r l)) s t =
  op_add K (vn1_phi K SS N T F0 F1 r l) (op_adj K (vn1_phi K SS N T F0 F1 r l)) s t + kap l * Q l s t.
Proof.
  intros l s t Hl Hs Ht. unfold op_add, op_adj, vn1_phi, op_up, op_add, op_had.
  destruct (Nat.eqb_spec (N s) (S (N t))) as [A|A], (Nat.eqb_spec (N t) (S (N s))) as [B|B]; try lia.
  - rewrite S0, S1 by auto. rewrite conj_0. unfold Q. ring.
  - rewrite S0, S1 by auto. rewrite <- (Q_herm l t s) by auto. unfold Q. rewrite !conj_add, !conj_mul, !conj_add, KR. ring.
  - unfold Q. destruct (Tr_odd l s t Hl Hs Ht A B) as (-> & ->). rewrite conj_0. ring.
Qed.
Lemma red_shift : forall l s t, (l < nl)%nat -> In s SS -> In t SS ->
  op_add K (mul (red_D K N T F0' F1' l) r) (mul r (op_adj K (red_D K N T F0' F1' l))) s t =
  op_add K (mul (red_D K N T F0 F1 l) r) (mul r (op_adj K (red_D K N T F0 F1 l))) s t + kap l * Q l s t.
Proof.
  intros l s t Hl Hs Ht.
  assert (D : forall a b, In a SS -> In b SS -> red_D K N T F0' F1' l a b = red_D K N T F0 F1 l a b + kap l * T l a b).
  { intros a b Ha Hb. unfold red_D, op_add, op_adj, op_up, op_had.
    destruct (Nat.eqb_spec (N a) (S (N b))) as [A|A], (Nat.eqb_spec (N b) (S (N a))) as [B|B]; try lia.
    - rewrite S0 by auto. rewrite conj_0. ring.
    - rewrite S1 by auto. rewrite !conj_mul, conj_add, KR, HT. ring.
    - rewrite (SEL l a b) by auto. rewrite conj_0. ring. }
  unfold op_add. unfold Q.
  assert (A : mul (red_D K N T F0' F1' l) r s t = mul (red_D K N T F0 F1 l) r s t + kap l * mul (T l) r s t).
  { rewrite <- mul_scal_l, <- mul_add_l. apply (mul_ext K L); auto. }
  assert (B : mul r (op_adj K (red_D K N T F0' F1' l)) s t = mul r (op_adj K (red_D K N T F0 F1 l)) s t + kap l * mul r (T l) s t).
  { rewrite <- mul_scal_r, <- mul_add_r. apply (mul_ext K L); auto. intros u Hu. unfold op_adj. rewrite D by auto.
    now rewrite conj_add, conj_mul, KR, HT. }
  rewrite A, B. ring.
Qed.
Lemma comm_shift : forall l X X', (l < nl)%nat -> (forall s t, In s SS -> In t SS -> X' s t = X s t + kap l * Q l s t) ->
  forall s t, In s SS -> In t SS -> comm (T l) X' s t = comm (T l) X s t.
Proof.
  intros l X X' Hl H s t Hs Ht. unfold op_comm.
  assert (A : mul (T l) X' s t = mul (T l) X s t + kap l * mul (T l) (Q l) s t).
  { rewrite <- mul_scal_r, <- mul_add_r. apply (mul_ext K L); auto. }
  assert (B : mul X' (T l) s t = mul X (T l) s t + kap l * mul (Q l) (T l) s t).
  { rewrite <- mul_scal_l, <- mul_add_l. apply (mul_ext K L); auto. }
  rewrite A, B. pose proof (Q_comm l s t Hl Hs Ht) as Z. unfold op_comm in Z.
  transitivity (mul (T l) X s t - mul X (T l) s t + kap l * (mul (T l) (Q l) s t - mul (Q l) (T l) s t)); [ring|]. rewrite Z. ring.
Qed.
Lemma vn1_same : forall l s t, (l < nl)%nat -> In s SS -> In t SS ->
  vn1_lead K SS N T F0' F1' r l s t = vn1_lead K SS N T F0 F1 r l s t.
Proof.
  intros l s t Hl Hs Ht. unfold vn1_lead. f_equal. apply comm_shift; auto. intros. now apply phi_shift.
Qed.
Lemma red_same : forall l s t, (l < nl)%nat -> In s SS -> In t SS ->
  red_lead K SS N T F0' F1' r l s t = red_lead K SS N T F0 F1 r l s t.
Proof.
  intros l s t Hl Hs Ht. unfold red_lead. f_equal. apply comm_shift; auto. intros. now apply red_shift.
Qed.
End Shift.

(** *** Energy currents: the tables change by kap (E_c - E_b) and constants *)
Section Weighted.
Definition n_ (s : nat) : C := ofR (rnat K (N s)).
Lemma n_up : forall s t, N s = S (N t) -> n_ s - n_ t = 1.
Proof. intros s t H. unfold n_. rewrite H. cbn [rnat]. apply cplx_eq; cbn [re im ofR]; [change (rnat K (N t) + 1 - rnat K (N t) = 1)|change ((0 : K) - 0 = 0)]; ring. Qed.
Lemma n_eq : forall s t, N s = N t -> n_ s = n_ t.
Proof. intros s t H. unfold n_. now rewrite H. Qed.
Lemma W_swap : forall (w : nat -> C) l X, rsum (fun s => w s * comm (T l) X s s) SS =
  rsum (fun s => rsum (fun u => (w s - w u) * (T l s u * X u s)) SS) SS.
Proof.
  intros w l X. unfold op_comm, op_mul.
  transitivity (rsum (fun s => rsum (fun u => w s * (T l s u * X u s)) SS - rsum (fun u => w s * (X s u * T l u s)) SS) SS : C).
  { apply rsum_ext. intros s _. rewrite !rsum_mul_l. ring. }
  rewrite rsum_minus, (rsum_swap C _ _ (fun s u => w s * (X s u * T l u s))), <- rsum_minus. apply rsum_ext. intros s _.
  rewrite <- rsum_minus. apply rsum_ext. intros u _. ring.
Qed.
Local Notation W l X := (rsum (fun s => n_ s * comm (T l) X s s) SS).
Lemma W_ext : forall l X X', (forall s t, In s SS -> In t SS -> X s t = X' s t) -> W l X = W l X'.
Proof. intros l X X' H. rewrite !W_swap. apply rsum_ext. intros s Hs. apply rsum_ext. intros u Hu. now rewrite H. Qed.
Lemma W_add : forall l X Y, W l (fun s t => X s t + Y s t) = W l X + W l Y.
Proof. intros l X Y. rewrite !W_swap, <- rsum_plus. apply rsum_ext. intros s _. rewrite <- rsum_plus. apply rsum_ext. intros. ring. Qed.

Variables (e : nat -> C) (kap d0 d1 : nat -> C).
Hypotheses (ER : forall s, conj (e s) = e s) (KR : forall l, conj (kap l) = kap l) (D0 : forall l, conj (d0 l) = d0 l) (D1 : forall l, conj (d1 l) = d1 l).

(** constants in the tables *)
Definition Yd (l : nat) : Op K := fun u s =>
  if (N u =? S (N s))%nat then d0 l * mul (T l) r u s + d1 l * mul r (T l) u s
  else if (N s =? S (N u))%nat then d0 l * mul r (T l) u s + d1 l * mul (T l) r u s else 0.
Lemma Yd_W : forall l, W l (Yd l) = 0.
Proof.
  intros l. rewrite W_swap.
  set (i := fun a b : nat => (if (a =? b)%nat then 1 else 0) : C).
  set (t0 := fun s u v => i (N s) (S (N u)) * (T l s u * r u v * T l v s)).
  set (t0' := fun s u v => i (N u) (S (N s)) * (T l s u * T l u v * r v s)).
  set (t1 := fun s u v => i (N s) (S (N u)) * (T l s u * T l u v * r v s)).
  set (t1' := fun s u v => i (N u) (S (N s)) * (T l s u * r u v * T l v s)).
  set (S3 := fun f : nat -> nat -> nat -> C => rsum (fun s => rsum (fun u => rsum (fun v => f s u v) SS) SS) SS).
  assert (E : rsum (fun s => rsum (fun u => (n_ s - n_ u) * (T l s u * Yd l u s)) SS) SS =
     d0 l * (S3 t0 - S3 t0') + d1 l * (S3 t1 - S3 t1')).
  { unfold S3. rewrite <- !rsum_minus, <- !rsum_mul_l, <- rsum_plus. apply rsum_ext. intros s _.
    rewrite <- !rsum_minus, <- !rsum_mul_l, <- rsum_plus. apply rsum_ext. intros u _.
    unfold Yd, op_mul, t0, t0', t1, t1', i.
    destruct (Nat.eqb_spec (N u) (S (N s))) as [A|A], (Nat.eqb_spec (N s) (S (N u))) as [B|B]; try lia.
    - replace (n_ s - n_ u) with (- (1) : C) by (rewrite <- (n_up u s A); ring).
      rewrite !rsum_mul_l.
      rewrite (rsum_ext C _ (fun v => T l s u * T l u v * r v s) (fun v => T l s u * (T l u v * r v s))) by (intros; ring).
      rewrite (rsum_ext C _ (fun v => T l s u * r u v * T l v s) (fun v => T l s u * (r u v * T l v s))) by (intros; ring).
      rewrite !rsum_mul_l. ring.
    - replace (n_ s - n_ u) with (1 : C) by (now rewrite (n_up s u B)).
      rewrite !rsum_mul_l.
      rewrite (rsum_ext C _ (fun v => T l s u * T l u v * r v s) (fun v => T l s u * (T l u v * r v s))) by (intros; ring).
      rewrite (rsum_ext C _ (fun v => T l s u * r u v * T l v s) (fun v => T l s u * (r u v * T l v s))) by (intros; ring).
      rewrite !rsum_mul_l. ring.
    - rewrite !rsum_mul_l. ring. }
  rewrite E.
  assert (R3 : forall f, S3 f = S3 (fun s u v => f v s u)).
  { intros f. unfold S3. rewrite (rsum_swap C). 
    transitivity (rsum (fun u => rsum (fun v => rsum (fun s => f s u v) SS) SS) SS : C).
    - apply rsum_ext. intros u _. apply (rsum_swap C).
    - reflexivity. }
  assert (X0 : S3 t0' = S3 t0).
  { rewrite R3. unfold S3. apply rsum_ext. intros s _. apply rsum_ext. intros u _. apply rsum_ext. intros v _. unfold t0, t0', i.
    destruct (Nat.eq_dec (N u) (N v)) as [q|q]; [|rewrite (r_diag u v q); ring]. rewrite q. ring. }
  assert (X1 : S3 t1' = S3 t1).
  { rewrite (R3 t1'), R3. unfold S3. apply rsum_ext. intros s _. apply rsum_ext. intros u _. apply rsum_ext. intros v _. unfold t1, t1', i.
    destruct (Nat.eq_dec (N v) (N s)) as [q|q]; [|rewrite (r_diag v s q); ring]. rewrite q. ring. }
  rewrite X0, X1. ring.
Qed.

(** 1vN: the part with the energies *)
Definition Yk (l : nat) : Op K := fun u s =>
  if (N u =? S (N s))%nat then kap l * (e u - e s) * Q l u s
  else if (N s =? S (N u))%nat then kap l * (e s - e u) * Q l u s else 0.
Lemma Yk_W : forall l, (l < nl)%nat -> W l (Yk l) = 0.
Proof.
  intros l Hl. rewrite W_swap.
  transitivity (kap l * rsum (fun s => rsum (fun u => (e s - e u) * (T l s u * Q l u s)) SS) SS).
  - rewrite <- rsum_mul_l. apply rsum_ext. intros s Hs. rewrite <- rsum_mul_l. apply rsum_ext. intros u Hu. unfold Yk.
    destruct (Nat.eqb_spec (N u) (S (N s))) as [A|A], (Nat.eqb_spec (N s) (S (N u))) as [B|B]; try lia.
    + replace (n_ s - n_ u) with (- (1) : C) by (rewrite <- (n_up u s A); ring). ring.
    + rewrite (n_up s u B). ring.
    + rewrite (SEL l s u) by auto. ring.
  - rewrite <- (W_swap e). rewrite (rsum_0 C); [ring|]. intros s Hs. rewrite Q_comm by auto. ring.
Qed.
(** Redfield: the part with the energies *)
Definition Ak (l : nat) : Op K := fun a b => (n_ a - n_ b) * (e a - e b) * T l a b.
Definition Yr (l : nat) : Op K := fun u s => kap l * (mul (Ak l) r u s + mul r (Ak l) u s).
Lemma Yr_W : forall l, (l < nl)%nat -> W l (Yr l) = 0.
Proof.
  intros l Hl. rewrite W_swap.
  set (B := fun s u => (n_ s - n_ u) * T l s u).
  transitivity (kap l * rsum (fun s => rsum (fun v => r v s * rsum (fun u => B s u * Ak l u v + Ak l s u * B u v) SS) SS) SS).
  - rewrite <- rsum_mul_l.
    transitivity (kap l * (rsum (fun s => rsum (fun u => rsum (fun v => B s u * Ak l u v * r v s) SS) SS) SS +
       rsum (fun s => rsum (fun u => rsum (fun v => B s u * r u v * Ak l v s) SS) SS) SS)).
    + rewrite <- rsum_plus, <- rsum_mul_l. apply rsum_ext. intros s _. rewrite <- rsum_plus, <- rsum_mul_l. apply rsum_ext. intros u _.
      unfold Yr, op_mul, B.
      rewrite (rsum_ext C _ (fun v => (n_ s - n_ u) * T l s u * Ak l u v * r v s) (fun v => ((n_ s - n_ u) * T l s u) * (Ak l u v * r v s))) by (intros; ring).
      rewrite (rsum_ext C _ (fun v => (n_ s - n_ u) * T l s u * r u v * Ak l v s) (fun v => ((n_ s - n_ u) * T l s u) * (r u v * Ak l v s))) by (intros; ring).
      rewrite !rsum_mul_l. ring.
    + rewrite rsum_mul_l. f_equal.
      assert (X1 : rsum (fun s => rsum (fun u => rsum (fun v => B s u * Ak l u v * r v s) SS) SS) SS =
         rsum (fun s => rsum (fun v => r v s * rsum (fun u => B s u * Ak l u v) SS) SS) SS).
      { apply rsum_ext. intros s _. rewrite rsum_swap. apply rsum_ext. intros v _. rewrite <- rsum_mul_l. apply rsum_ext. intros; ring. }
      assert (X2 : rsum (fun s => rsum (fun u => rsum (fun v => B s u * r u v * Ak l v s) SS) SS) SS =
         rsum (fun s => rsum (fun v => r v s * rsum (fun u => Ak l s u * B u v) SS) SS) SS).
      { rewrite (sum_rot3 C). rewrite rsum_swap. apply rsum_ext. intros s _. apply rsum_ext. intros v _. rewrite <- rsum_mul_l. apply rsum_ext. intros; ring. }
      rewrite X1, X2, <- rsum_plus. apply rsum_ext. intros s _. rewrite <- rsum_plus. apply rsum_ext. intros v _.
      rewrite rsum_plus. ring.
  - rewrite (rsum_0 C); [ring|]. intros s Hs. apply (rsum_0 C). intros v Hv.
    destruct (Nat.eq_dec (N v) (N s)) as [q|q]; [|rewrite (r_diag v s q); ring].
    transitivity (r v s * (- (e s - e v) * mul (T l) (T l) s v)).
    + f_equal. unfold op_mul. rewrite <- rsum_mul_l. apply rsum_ext. intros u Hu. unfold B, Ak. rewrite (n_eq v s q).
      destruct (Nat.eq_dec (N s) (S (N u))) as [H|H]; [|destruct (Nat.eq_dec (N u) (S (N s))) as [H'|H']].
      * replace (n_ u - n_ s) with (- (1) : C) by (rewrite <- (n_up s u H); ring). rewrite (n_up s u H). ring.
      * replace (n_ s - n_ u) with (- (1) : C) by (rewrite <- (n_up u s H'); ring). rewrite (n_up u s H'). ring.
      * rewrite (SEL l s u) by auto. ring.
    + rewrite SQ by auto. destruct (Nat.eqb_spec s v) as [->|]; ring.
Qed.

Variables (F0 F1 F0' F1' : nat -> Op K).
Hypotheses (S0 : forall l s t, (l < nl)%nat -> In s SS -> In t SS -> N s = S (N t) -> F0' l s t = F0 l s t + (kap l * (e s - e t) + d0 l))
  (S1 : forall l s t, (l < nl)%nat -> In s SS -> In t SS -> N s = S (N t) -> F1' l s t = F1 l s t + (kap l * (e s - e t) + d1 l)).
Lemma conj_Tr : forall l s t, In s SS -> In t SS -> conj (mul (T l) r t s) = mul r (T l) s t /\ conj (mul r (T l) t s) = mul (T l) r s t.
Proof.
  intros l s t Hs Ht. rewrite !(adj_mul K L). split; apply (mul_ext K L); intros u Hu; unfold op_adj; try apply HT; now apply r_herm.
Qed.
Lemma vn_energy : forall l s t, (l < nl)%nat -> In s SS -> In t SS ->
  op_add K (vn1_phi K SS N T F0' F1' r l) (op_adj K (vn1_phi K SS N T F0' F1' r l)) s t =
  op_add K (vn1_phi K SS N T F0 F1 r l) (op_adj K (vn1_phi K SS N T F0 F1 r l)) s t + (Yk l s t + Yd l s t).
Proof.
  intros l s t Hl Hs Ht. destruct (conj_Tr l s t Hs Ht) as (J1 & J2). unfold op_add, op_adj, vn1_phi, op_up, op_add, op_had, Yk, Yd, Q.
  destruct (Nat.eqb_spec (N s) (S (N t))) as [A|A], (Nat.eqb_spec (N t) (S (N s))) as [B|B]; try lia.
  - rewrite S0, S1 by auto. rewrite conj_0. ring.
  - rewrite S0, S1 by auto. rewrite !conj_add, !conj_mul, !conj_add, !conj_mul, D0, D1, KR, J1, J2.
    assert (SB : conj (e t - e s) = e t - e s).
    { transitivity (conj (e t + - e s)); [f_equal; ring|]. rewrite conj_add, conj_opp, !ER. ring. }
    rewrite SB. ring.
  - rewrite conj_0. ring.
Qed.
Lemma red_energy : forall l s t, (l < nl)%nat -> In s SS -> In t SS ->
  op_add K (mul (red_D K N T F0' F1' l) r) (mul r (op_adj K (red_D K N T F0' F1' l))) s t =
  op_add K (mul (red_D K N T F0 F1 l) r) (mul r (op_adj K (red_D K N T F0 F1 l))) s t + (Yr l s t + Yd l s t).
Proof.
  intros l s t Hl Hs Ht.
  set (td := fun a b => (if (N a =? S (N b))%nat then d0 l else if (N b =? S (N a))%nat then d1 l else 0) * T l a b).
  assert (SB : forall a b, conj (e a - e b) = e a - e b).
  { intros a b. transitivity (conj (e a + - e b)); [f_equal; ring|]. rewrite conj_add, conj_opp, !ER. ring. }
  assert (D : forall a b, In a SS -> In b SS -> red_D K N T F0' F1' l a b = red_D K N T F0 F1 l a b + (kap l * Ak l a b + td a b)).
  { intros a b Ha Hb. unfold red_D, op_add, op_adj, op_up, op_had, Ak, td.
    destruct (Nat.eqb_spec (N a) (S (N b))) as [A|A], (Nat.eqb_spec (N b) (S (N a))) as [B|B]; try lia.
    - rewrite S0 by auto. rewrite conj_0, (n_up a b A). ring.
    - rewrite S1 by auto. rewrite !conj_mul, !conj_add, !conj_mul, SB, KR, D1, HT.
      replace (n_ a - n_ b) with (- (1) : C) by (rewrite <- (n_up b a B); ring). ring.
    - rewrite (SEL l a b) by auto. rewrite conj_0. ring. }
  assert (JA : forall a b, conj (Ak l a b) = Ak l b a).
  { intros a b. unfold Ak. rewrite !conj_mul, SB, HT.
    assert (NR : conj (n_ a - n_ b) = n_ a - n_ b).
    { transitivity (conj (n_ a + - n_ b)); [f_equal; ring|]. rewrite conj_add, conj_opp.
      assert (X : forall q, conj (n_ q) = n_ q) by (intros q; unfold n_; apply cplx_eq; cbn [re im conj ofR]; ring).
      rewrite !X. ring. }
    rewrite NR. ring. }
  unfold op_add, Yr.
  assert (A : mul (red_D K N T F0' F1' l) r s t = mul (red_D K N T F0 F1 l) r s t + (kap l * mul (Ak l) r s t + mul td r s t)).
  { rewrite <- mul_scal_l, <- !mul_add_l. apply (mul_ext K L); auto. }
  assert (B : mul r (op_adj K (red_D K N T F0' F1' l)) s t =
     mul r (op_adj K (red_D K N T F0 F1 l)) s t + (kap l * mul r (Ak l) s t + mul r (op_adj K td) s t)).
  { rewrite <- mul_scal_r, <- !mul_add_r. apply (mul_ext K L); auto. intros u Hu. unfold op_adj. rewrite D by auto.
    now rewrite !conj_add, conj_mul, KR, JA. }
  rewrite A, B.
  assert (E : mul td r s t + mul r (op_adj K td) s t = Yd l s t).
  { assert (E1 : mul td r s t = (if (N s =? S (N t))%nat then d0 l else if (N t =? S (N s))%nat then d1 l else 0) * mul (T l) r s t).
    { unfold op_mul. rewrite <- rsum_mul_l. apply rsum_ext. intros u Hu. unfold td.
      destruct (Nat.eq_dec (N u) (N t)) as [q|q]; [rewrite q; ring|rewrite (r_diag u t q); ring]. }
    assert (E2 : mul r (op_adj K td) s t = (if (N t =? S (N s))%nat then d0 l else if (N s =? S (N t))%nat then d1 l else 0) * mul r (T l) s t).
    { unfold op_mul. rewrite <- rsum_mul_l. apply rsum_ext. intros u Hu. unfold td, op_adj.
      destruct (Nat.eq_dec (N s) (N u)) as [q|q]; [rewrite <- q|rewrite (r_diag s u q); ring].
      rewrite conj_mul, HT. destruct (N t =? S (N s))%nat; [rewrite D0; ring|]. destruct (N s =? S (N t))%nat; [rewrite D1; ring|]. rewrite conj_0. ring. }
    rewrite E1, E2. unfold Yd. destruct (Nat.eqb_spec (N s) (S (N t))), (Nat.eqb_spec (N t) (S (N s))); try lia; ring. }
  rewrite <- E. ring.
Qed.
Lemma W_vn : forall l, (l < nl)%nat ->
  rsum (fun s => rnat K (N s) * re (vn1_lead K SS N T F0' F1' r l s s)) SS = rsum (fun s => rnat K (N s) * re (vn1_lead K SS N T F0 F1 r l s s)) SS.
Proof.
  intros l Hl. assert (G : forall X, rsum (fun s => rnat K (N s) * re (- Ci K * comm (T l) X s s)) SS = re (- Ci K * W l X)).
  { intros X. rewrite <- rsum_mul_l, rsum_re. apply rsum_ext. intros s _.
    transitivity (re (n_ s * (- Ci K * comm (T l) X s s))); [|f_equal; ring].
    generalize (- Ci K * comm (T l) X s s). intros z. unfold n_. rewrite re_mul. cbn [re im ofR]. ring. }
  unfold vn1_lead. rewrite !G. f_equal. f_equal. rewrite (W_ext l _ _ (fun s t => vn_energy l s t Hl)).
  rewrite W_add, W_add, Yk_W, Yd_W by auto. ring.
Qed.
Lemma W_red : forall l, (l < nl)%nat ->
  rsum (fun s => rnat K (N s) * re (red_lead K SS N T F0' F1' r l s s)) SS = rsum (fun s => rnat K (N s) * re (red_lead K SS N T F0 F1 r l s s)) SS.
Proof.
  intros l Hl. assert (G : forall X, rsum (fun s => rnat K (N s) * re (- Ci K * comm (T l) X s s)) SS = re (- Ci K * W l X)).
  { intros X. rewrite <- rsum_mul_l, rsum_re. apply rsum_ext. intros s _.
    transitivity (re (n_ s * (- Ci K * comm (T l) X s s))); [|f_equal; ring].
    generalize (- Ci K * comm (T l) X s s). intros z. unfold n_. rewrite re_mul. cbn [re im ofR]. ring. }
  unfold red_lead. rewrite !G. f_equal. f_equal. rewrite (W_ext l _ _ (fun s t => red_energy l s t Hl)).
  rewrite W_add, W_add, Yr_W, Yd_W by auto. ring.
Qed.
End Weighted.
End Band.

(** ** Kernels and currents *)
Section Kernels.
Variable K : CRing.
Local Notation C := (Cx K).
Local Open Scope rng_scope.
Add Ring KrBG : (rth K).
Add Ring CrBG : (rth (Cx K)).
Variable L : Lay.
Hypothesis LO : layout L.
Variable N : nat -> nat.
Hypothesis CH : forall c b, (0 <= c)%Z -> In b (states L c) -> N b = Z.to_nat c.
Local Notation SS := (cons_states L).
Lemma rho_mk' : forall phi s t c, el L s t c -> rho K L phi s t c = mkC (phi (ind0 L s t c))
  (if has_imag L (ind0 L s t c) then if cnj L s t c then phi (imag_ind L (ind0 L s t c)) else - phi (imag_ind L (ind0 L s t c)) else 0).
Proof. intros phi s t c (_ & _ & _ & H). unfold rho. apply Z.eqb_neq in H. now rewrite H. Qed.
(** the elements determine the vector *)
Lemma rho_all : forall phi phi', (forall s t c, el L s t c -> rho K L phi s t c = rho K L phi' s t c) ->
  forall k, inr (ly_ndm0r L) k -> phi k = phi' k.
Proof.
  intros phi phi' X k (Hk0 & Hk1). pose proof (lo_le L LO) as LE. pose proof (lo_size L LO) as SZ.
  destruct (Z.lt_ge_cases k (npauliZ L)) as [P|P]; [|destruct (Z.lt_ge_cases k (ndm0Z L)) as [Q|Q]].
  - destruct (lo_surj L LO (Z.to_nat k)) as (b & c & Hc & Hb & I); [unfold npauliZ in *; lia|]. rewrite Z2Nat.id in I by auto.
    assert (EL : el L b b c) by (repeat split; auto; lia). specialize (X _ _ _ EL). rewrite !rho_mk' in X by auto.
    apply (f_equal (@re K)) in X. cbn [re] in X. now rewrite I in X.
  - destruct (lo_surj2 L LO (Z.to_nat k)) as (b & bp & c & Hc & Hb & Hbp & Hne & I & _); [unfold npauliZ, ndm0Z in *; lia|]. rewrite Z2Nat.id in I by auto.
    assert (EL : el L b bp c) by (repeat split; auto; lia). specialize (X _ _ _ EL). rewrite !rho_mk' in X by auto.
    apply (f_equal (@re K)) in X. cbn [re] in X. now rewrite I in X.
  - destruct (lo_surj2 L LO (Z.to_nat (k - ndm0Z L + npauliZ L))) as (b & bp & c & Hc & Hb & Hbp & Hne & I & Q'); [unfold npauliZ, ndm0Z in *; lia|].
    rewrite Z2Nat.id in I by (unfold npauliZ, ndm0Z in *; lia).
    assert (EL : el L b bp c) by (repeat split; auto; unfold npauliZ, ndm0Z in *; lia). specialize (X _ _ _ EL). rewrite !rho_mk' in X by auto.
    destruct (el_cases L LO b bp c EL) as [(Y & _)|(_ & R' & IM)]; [contradiction|]. rewrite IM in X.
    destruct (lo_off L LO b bp c Hc Hb Hbp Hne) as (_ & W). destruct EL as (_ & _ & _ & A4). destruct (W A4) as (_ & _ & W2 & _). rewrite W2, Q' in X.
    apply (f_equal (@im K)) in X. cbn [im] in X. unfold imag_ind in X. rewrite I in X.
    replace (ndm0Z L + (k - ndm0Z L + npauliZ L) - npauliZ L)%Z with k in X by lia. exact X.
Qed.
Lemma kern_all : forall k k' : Z * Z -> K,
  (forall phi s t c, el L s t c -> rho K L (act K (ly_ndm0r L) k phi) s t c = rho K L (act K (ly_ndm0r L) k' phi) s t c) ->
  forall i j, inr (ly_ndm0r L) i -> inr (ly_ndm0r L) j -> k (i, j) = k' (i, j).
Proof.
  intros k k' H i j Hi (J0 & J1). rewrite <- (Z2Nat.id j) by lia.
  rewrite <- !(act_unit K (ly_ndm0r L)) by lia. apply rho_all; auto.
Qed.
Lemma cons_q : forall s t, In s SS -> In t SS -> N s = S (N t) -> In t (states L (Z.of_nat (N t))) /\ In s (states L (Z.of_nat (N t) + 1)).
Proof.
  intros s t Hs Ht E. split; [now apply (cons_block_of L N CH)|].
  replace (Z.of_nat (N t) + 1)%Z with (Z.of_nat (N s)) by lia. now apply (cons_block_of L N CH).
Qed.

Variables (nl : nat) (h : K) (T : nat -> Op K) (g : nat -> C).
Hypotheses (Hh : h + h = 1) (HT : hermitian K T).
(** the amplitudes change the number of electrons by one, and the square of each lead's operator is a number *)
Definition one_electron : Prop :=
  forall l s t, (l < nl)%nat -> In s SS -> In t SS -> N s <> S (N t) -> N t <> S (N s) -> T l s t = 0.
Definition squares : Prop :=
  forall l s t, (l < nl)%nat -> In s SS -> In t SS -> rsum (fun u => T l s u * T l u t) SS = if s =? t then g l else 0.
(** two sets of tables whose entries differ by a real number for each lead *)
Definition tables_shifted (kap : nat -> K) (F F' : nat -> nat -> bool -> C) : Prop :=
  forall l c b q s, (l < nl)%nat -> (0 <= q)%Z -> In c (states L (q + 1)) -> In b (states L q) ->
  F' l (ind1 L c b q) s = F l (ind1 L c b q) s + ofR (kap l).
(** the same for tables of energies *)
Definition etables_shifted (E : nat -> K) (kap : nat -> K) (d : nat -> bool -> K) (F F' : nat -> nat -> bool -> C) : Prop :=
  forall l c b q s, (l < nl)%nat -> (0 <= q)%Z -> In c (states L (q + 1)) -> In b (states L q) ->
  F' l (ind1 L c b q) s = F l (ind1 L c b q) s + ofR (kap l * (E c - E b) + d l s).
Hypotheses (SEL : one_electron) (SQ : squares).
Variables (kap : nat -> K) (F F' : nat -> nat -> bool -> C).
Hypothesis TS : tables_shifted kap F F'.
Lemma tab_shift : forall s l a b, (l < nl)%nat -> In a SS -> In b SS -> N a = S (N b) ->
  tab K L N F' s l a b = tab K L N F s l a b + ofR (kap l).
Proof. intros s l a b Hl Ha Hb E. destruct (cons_q a b Ha Hb E) as (A & B). unfold tab. apply TS; auto. lia. Qed.
Lemma real_conj : forall x : K, conj (ofR x : C) = ofR x.
Proof. intros x. apply cplx_eq; cbn [re im conj ofR]; ring. Qed.

Theorem C68_kernel : forall E i j, inr (ly_ndm0r L) i -> inr (ly_ndm0r L) j ->
  kern_of K L (vn1_calls K L nl T F' E) (i, j) = kern_of K L (vn1_calls K L nl T F E) (i, j) /\
  kern_of K L (red_calls K L nl T F' E) (i, j) = kern_of K L (red_calls K L nl T F E) (i, j).
Proof.
  intros E i j Hi Hj. split; apply kern_all; auto; intros phi s t c EL.
  - rewrite !(gen46_vn1 K L LO N CH nl h) by auto. unfold master. f_equal. apply rsum_ext. intros l Hl. apply in_seq in Hl.
    destruct EL as (Hc & Hs & Ht & _).
    apply (vn1_same K L LO N CH nl T g HT SEL SQ phi _ _ _ _ (fun l => ofR (kap l))); try (eapply cons_in; eauto); try lia.
    all: intros; first [apply real_conj | now apply tab_shift].
  - rewrite !(gen46_redfield K L LO N CH nl h) by auto. unfold master. f_equal. apply rsum_ext. intros l Hl. apply in_seq in Hl.
    destruct EL as (Hc & Hs & Ht & _).
    apply (red_same K L LO N nl T g HT SEL SQ phi _ _ _ _ (fun l => ofR (kap l))); try (eapply cons_in; eauto); try lia.
    all: intros; first [apply real_conj | now apply tab_shift].
Qed.
Theorem C68_current : forall phi l, (l < nl)%nat ->
  vn1_current K L phi T F' l = vn1_current K L phi T F l /\ red_current K L phi T F' l = red_current K L phi T F l.
Proof.
  intros phi l Hl. split.
  - rewrite !(gen47_vn1 K L LO N CH h) by auto. apply rsum_ext. intros s Hs. f_equal. f_equal.
    apply (vn1_same K L LO N CH nl T g HT SEL SQ phi _ _ _ _ (fun l => ofR (kap l))); auto.
    all: intros; first [apply real_conj | now apply tab_shift].
  - rewrite !(gen47_redfield K L LO N CH h) by auto. apply rsum_ext. intros s Hs. f_equal. f_equal.
    apply (red_same K L LO N nl T g HT SEL SQ phi _ _ _ _ (fun l => ofR (kap l))); auto.
    all: intros; first [apply real_conj | now apply tab_shift].
Qed.
Theorem C68_energy_current : forall E d Fe Fe' phi l, etables_shifted E kap d Fe Fe' -> (l < nl)%nat ->
  vn1_current K L phi T Fe' l = vn1_current K L phi T Fe l /\ red_current K L phi T Fe' l = red_current K L phi T Fe l.
Proof.
  intros E d Fe Fe' phi l ES Hl.
  assert (TE : forall s l a b, (l < nl)%nat -> In a SS -> In b SS -> N a = S (N b) ->
     tab K L N Fe' s l a b = tab K L N Fe s l a b + (ofR (kap l) * (ofR (E a) - ofR (E b)) + ofR (d l s))).
  { intros s l' a b Hl' Ha Hb Q. destruct (cons_q a b Ha Hb Q) as (A & B). unfold tab. rewrite ES by (auto; lia). f_equal.
    apply cplx_eq; rewrite ?re_add, ?im_add, ?re_mul, ?im_mul; cbn [re im ofR]; [change (re (ofR (E a) - ofR (E b))) with (E a - E b)|];
      change (im (ofR (E a) - ofR (E b))) with (0 - 0 : K); ring. }
  split.
  - rewrite !(gen47_vn1 K L LO N CH h) by auto.
    apply (W_vn K L LO N CH nl T g HT SEL SQ phi (fun s => ofR (E s)) (fun l => ofR (kap l)) (fun l => ofR (d l false)) (fun l => ofR (d l true)));
      auto; intros; apply real_conj.
  - rewrite !(gen47_redfield K L LO N CH h) by auto.
    apply (W_red K L N nl T g HT SEL SQ phi (fun s => ofR (E s)) (fun l => ofR (kap l)) (fun l => ofR (d l false)) (fun l => ofR (d l true)));
      auto; intros; apply real_conj.
Qed.
End Kernels.
Print Assumptions C68_kernel.
Print Assumptions C68_current.
Print Assumptions C68_energy_current.
