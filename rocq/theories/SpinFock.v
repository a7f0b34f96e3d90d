(** Specification: the spin operators on Fock space, independent of the modelled code.  Levels 0 .. h-1 carry spin up and
    levels h .. 2h-1 spin down.  The units are those of the code: [sz] is (number up) - (number down), that is 2 S_z, and
    the ladder operators are 2 S^+ and 2 S^-. *)
From Coq Require Import String ZArith List Arith Lia Bool.
From Verif Require Import Base CRing Fock Indexing PropIndexing Operators OperatorsProofs PropOperators.
Import ListNotations.
Open Scope nat_scope.
Local Notation length := List.length.

Section SpinFock.
Variable K : CRing.
Add Ring Kspin : (rth K).
Local Open Scope rng_scope.
Variable h : nat.

Definition two : K := 1 + 1.
(** 2 sum_j d^dagger_(j,down) d_(j,up) and 2 sum_j d^dagger_(j,up) d_(j,down) *)
Definition spin_lower : op K := osum K (fun j => oscale K two (ocomp K (cre K (h + j)) (ann K j))) (seq 0 h).
Definition spin_raise : op K := osum K (fun j => oscale K two (ocomp K (cre K j) (ann K (h + j)))) (seq 0 h).

Lemma osum_app : forall A (F : A -> op K) l f s, osum K F l f s = rsum (fun x => F x f s) l.
Proof. induction l; simpl; intros; auto. unfold oplus. now rewrite IHl. Qed.

(** linearity *)
Lemma letter_rsum : forall A x (F : A -> vec K) l s,
  letter K x (fun t => rsum (fun k => F k t) l) s = rsum (fun k => letter K x (F k) s) l.
Proof.
  intros A [b i] F l s. unfold letter. cbn [fst snd]. destruct b; unfold cre, ann; destruct (occ_at i s).
  - now rewrite rsum_mul_l.
  - symmetry. apply rsum_0. auto.
  - symmetry. apply rsum_0. auto.
  - now rewrite rsum_mul_l.
Qed.
Definition hop (g f : nat) : op K := ocomp K (cre K g) (ann K f).
Lemma hop_ext : forall g f u v s, (forall t, length t = length s -> u t = v t) -> hop g f u s = hop g f v s.
Proof. intros. apply cre_ext. intros. apply ann_ext. intros. apply H. congruence. Qed.
Lemma hop_rsum : forall A g f (F : A -> vec K) l s, hop g f (fun t => rsum (fun k => F k t) l) s = rsum (fun k => hop g f (F k) s) l.
Proof.
  intros. unfold hop, ocomp. rewrite (cre_ext K g _ (fun t => rsum (fun k => ann K f (F k) t) l)).
  - apply (letter_rsum A (true, g)).
  - intros t _. apply (letter_rsum A (false, f)).
Qed.
Lemma hop_lin : forall g f c u s, hop g f (fun t => c * u t) s = c * hop g f u s.
Proof.
  intros. unfold hop, ocomp. rewrite (cre_ext K g _ (fun t => c * ann K f u t)) by (intros; apply ann_lin). apply cre_lin.
Qed.

(** a ladder operator: 2 sum_j d^dagger_(to j) d_(from j) *)
Section Ladder.
Variables from to : nat -> nat.
Definition ladder : op K := osum K (fun j => oscale K two (hop (to j) (from j))) (seq 0 h).
Lemma ladder_sum : forall f s, ladder f s = rsum (fun j => two * hop (to j) (from j) f s) (seq 0 h).
Proof. intros. unfold ladder. rewrite osum_app. reflexivity. Qed.
Lemma ladder_ext : forall u v s, (forall t, length t = length s -> u t = v t) -> ladder u s = ladder v s.
Proof. intros. rewrite !ladder_sum. apply rsum_ext. intros. f_equal. now apply hop_ext. Qed.
Lemma ladder_rsum : forall A (c : A -> K) (F : A -> vec K) l s,
  ladder (fun t => rsum (fun k => F k t * c k) l) s = rsum (fun k => ladder (F k) s * c k) l.
Proof.
  intros. rewrite ladder_sum.
  rewrite (rsum_ext K _ _ (fun j => rsum (fun k => two * hop (to j) (from j) (F k) s * c k) l)).
  - rewrite rsum_swap. apply rsum_ext. intros k _. rewrite rsum_mul_r. f_equal. symmetry. apply ladder_sum.
  - intros j _. rewrite hop_rsum. rewrite <- rsum_mul_l. apply rsum_ext. intros k _.
    rewrite (hop_ext _ _ (fun t => F k t * c k) (fun t => c k * F k t)) by (intros; ring). rewrite hop_lin. ring.
Qed.

Definition flip (j : nat) (s : list bool) : list bool := put (to j) true (put (from j) false s).
Definition flippable (j : nat) (s : list bool) : bool := occ_at (from j) s && negb (occ_at (to j) s).
Definition flip_sign (j : nat) (s : list bool) : K := jw K (from j) s * jw K (to j) (put (from j) false s).

Variable n : nat.
Hypothesis BND : forall j, (j < h)%nat -> (from j < n /\ to j < n)%nat.
Hypothesis DIS : forall j k, (j < h)%nat -> (k < h)%nat -> from j <> to k.
Hypothesis INJ : forall j k, (j < h)%nat -> (k < h)%nat -> from j = from k -> j = k.

Lemma hop_basis : forall j s t, (j < h)%nat -> length s = n -> length t = n ->
  hop (to j) (from j) (basis K s) t = if flippable j s then flip_sign j s * basis K (flip j s) t else 0.
Proof.
  intros j s t Hj Ls Lt. destruct (BND j Hj) as [Hf Ht]. unfold hop, ocomp, flippable, flip_sign, flip.
  pose proof (DIS j j Hj Hj) as D.
  destruct (occ_at (from j) s) eqn:E1.
  - rewrite (cre_on K (to j) (jw K (from j) s) (put (from j) false s)).
    + rewrite occ_put_other by auto. cbn [andb]. destruct (occ_at (to j) s); reflexivity.
    + rewrite put_length; lia.
    + intros u Hu. rewrite put_length in Hu. rewrite ann_basis by lia. now rewrite E1.
    + rewrite put_length; lia.
  - rewrite cre_on0; auto. intros u Hu. rewrite ann_basis by lia. now rewrite E1.
Qed.

Lemma flip_inj : forall j k s, (j < h)%nat -> (k < h)%nat -> length s = n -> flippable j s = true -> flippable k s = true ->
  flip j s = flip k s -> j = k.
Proof.
  intros j k s Hj Hk Ls Fj Fk E. destruct (Nat.eq_dec j k) as [|Hne]; auto. exfalso.
  destruct (BND j Hj) as [Hf Ht].
  assert (A : occ_at (from j) (flip j s) = false).
  { unfold flip. rewrite occ_put_other by (apply not_eq_sym, DIS; auto). apply occ_put_same; lia. }
  assert (B : occ_at (from j) (flip k s) = true).
  { unfold flip. rewrite occ_put_other by (apply not_eq_sym, DIS; auto).
    rewrite occ_put_other by (intros X; apply Hne; symmetry; apply INJ; auto).
    unfold flippable in Fj. apply andb_prop in Fj. tauto. }
  congruence.
Qed.

Lemma mel_ladder : forall s t, length s = n -> length t = n ->
  mel K ladder t s = rsum (fun j => if flippable j s then two * flip_sign j s * basis K (flip j s) t else 0) (seq 0 h).
Proof.
  intros s t Ls Lt. unfold mel. rewrite ladder_sum. apply rsum_ext. intros j Hj. apply in_seq in Hj.
  rewrite hop_basis by (auto; lia). destruct (flippable j s); ring.
Qed.
Lemma mel_ladder_flip : forall s j, length s = n -> (j < h)%nat -> flippable j s = true ->
  mel K ladder (flip j s) s = two * flip_sign j s.
Proof.
  intros s j Ls Hj Fj. rewrite mel_ladder; auto.
  - rewrite (rsum_single K _ _ (seq 0 h) j).
    + rewrite Fj, basis_refl. ring.
    + apply seq_NoDup.
    + apply in_seq; lia.
    + intros k Hk Hne. apply in_seq in Hk. destruct (flippable k s) eqn:Fk; auto.
      rewrite basis_neq; [ring|]. intros E. apply Hne. symmetry. eapply flip_inj; eauto. lia.
  - unfold flip. now rewrite !put_length.
Qed.
Lemma mel_ladder_zero : forall s t, length s = n -> length t = n ->
  (forall j, (j < h)%nat -> flippable j s = true -> t <> flip j s) -> mel K ladder t s = 0.
Proof.
  intros s t Ls Lt H. rewrite mel_ladder by auto. apply rsum_0. intros j Hj. apply in_seq in Hj.
  destruct (flippable j s) eqn:Fj; auto. rewrite basis_neq; [ring|]. apply H; auto. lia.
Qed.

(** completeness of the intermediate states *)
Lemma ladder_complete : forall (A : op K) (sts : list (list bool)) s t, length s = n -> length t = n ->
  (forall u v w, (forall x, length x = length w -> u x = v x) -> A u w = A v w) ->
  (forall (c : list bool -> K) (F : list bool -> vec K) l w, A (fun x => rsum (fun k => F k x * c k) l) w = rsum (fun k => A (F k) w * c k) l) ->
  NoDup sts -> (forall j, (j < h)%nat -> flippable j s = true -> In (flip j s) sts) ->
  (forall u, In u sts -> length u = n) ->
  mel K (ocomp K A ladder) t s = rsum (fun u => mel K A t u * mel K ladder u s) sts.
Proof.
  intros A sts s t Ls Lt EXT LIN ND CL LEN. unfold mel at 1. unfold ocomp.
  rewrite (EXT _ (fun x => rsum (fun u => basis K u x * mel K ladder u s) sts)).
  - rewrite LIN. apply rsum_ext. reflexivity.
  - intros x Lx. change (ladder (basis K s) x) with (mel K ladder x s).
    destruct (in_dec (list_eq_dec bool_dec) x sts) as [Hin|Hout].
    + rewrite (rsum_single K _ _ sts x ND Hin).
      * rewrite basis_refl. ring.
      * intros y Hy Hne. rewrite basis_neq by auto. ring.
    + rewrite rsum_0.
      * apply mel_ladder_zero; auto; [congruence|]. intros j Hj Fj ->. apply Hout. auto.
      * intros u Hu. rewrite basis_neq; [ring|]. intros ->. auto.
Qed.
End Ladder.

Lemma spin_lower_ladder : spin_lower = ladder (fun j => j) (fun j => (h + j)%nat).
Proof. reflexivity. Qed.
Lemma spin_raise_ladder : spin_raise = ladder (fun j => (h + j)%nat) (fun j => j).
Proof. reflexivity. Qed.

(** the two are adjoint to each other *)
Theorem spin_adjoint : forall s t, length s = (h + h)%nat -> length t = (h + h)%nat ->
  mel K spin_raise s t = mel K spin_lower t s.
Proof.
  intros s t Ls Lt. unfold spin_raise, spin_lower. rewrite !osum_mel. apply rsum_ext. intros j Hj. apply in_seq in Hj.
  unfold mel, oscale. f_equal.
  pose proof (word_adjoint K [(true, h + j)%nat; (false, j)] s t) as W. unfold mel, oid in W. cbn in W. unfold ocomp, oid in *.
  rewrite W; [reflexivity|congruence|]. intros b i [E|[E|[]]]; injection E as <- <-; lia.
Qed.

(** ** the commutator, from the anticommutation relations *)
Lemma anti_mixed : forall i j f s, (i < length s)%nat -> (j < length s)%nat ->
  ann K i (cre K j f) s = (if Nat.eqb i j then f s else 0) - cre K j (ann K i f) s.
Proof. intros i j f s Hi Hj. rewrite <- (CAR_mixed K i j f s) by auto. unfold oplus, ocomp. ring. Qed.
Lemma anti_ann : forall i j f s, (i < length s)%nat -> (j < length s)%nat -> ann K i (ann K j f) s = - ann K j (ann K i f) s.
Proof.
  intros i j f s Hi Hj. pose proof (CAR_ann K i j f s Hi Hj) as C. unfold oplus, ocomp in C.
  transitivity (ann K i (ann K j f) s + ann K j (ann K i f) s - ann K j (ann K i f) s); [ring|]. rewrite C. ring.
Qed.
Lemma anti_cre : forall i j f s, (i < length s)%nat -> (j < length s)%nat -> cre K i (cre K j f) s = - cre K j (cre K i f) s.
Proof.
  intros i j f s Hi Hj. pose proof (CAR_cre K i j f s Hi Hj) as C. unfold oplus, ocomp in C.
  transitivity (cre K i (cre K j f) s + cre K j (cre K i f) s - cre K j (cre K i f) s); [ring|]. rewrite C. ring.
Qed.
Lemma number : forall i f s, cre K i (ann K i f) s = if occ_at i s then f s else 0.
Proof.
  intros i f s. unfold cre, ann. destruct (occ_at i s) eqn:E; auto.
  assert (Hi : (i < length s)%nat).
  { destruct (Nat.lt_ge_cases i (length s)); auto. unfold occ_at in E. rewrite nth_overflow in E by auto. discriminate. }
  rewrite occ_put_same by auto. rewrite jw_put_ge by auto. rewrite put_put_same. rewrite <- E, put_self.
  transitivity (jw K i s * jw K i s * f s); [ring|]. rewrite jw_sq. ring.
Qed.
Lemma cre_split : forall i a b f s, cre K i (fun t => a * f t - b t) s = a * cre K i f s - cre K i b s.
Proof. intros. unfold cre. destruct (occ_at i s); ring. Qed.

Lemma pair_commutator : forall j k f s, (j < h)%nat -> (k < h)%nat -> length s = (h + h)%nat ->
  hop j (h + j) (hop (h + k) k f) s - hop (h + k) k (hop j (h + j) f) s =
  if Nat.eqb j k then (if occ_at j s then f s else 0) - (if occ_at (h + j) s then f s else 0) else 0.
Proof.
  intros j k f s Hj Hk Ls. unfold hop, ocomp.
  set (d := if Nat.eqb j k then 1 else 0 : K).
  assert (A : cre K j (ann K (h + j) (cre K (h + k) (ann K k f))) s =
     d * cre K j (ann K k f) s - cre K j (cre K (h + k) (ann K (h + j) (ann K k f))) s).
  { rewrite (cre_ext K j _ (fun t => d * ann K k f t - cre K (h + k) (ann K (h + j) (ann K k f)) t)).
    - apply cre_split.
    - intros t Lt. rewrite anti_mixed by lia. unfold d.
      destruct (Nat.eqb_spec (h + j) (h + k)), (Nat.eqb_spec j k); try lia; ring. }
  assert (B : cre K (h + k) (ann K k (cre K j (ann K (h + j) f))) s =
     d * cre K (h + k) (ann K (h + j) f) s - cre K (h + k) (cre K j (ann K k (ann K (h + j) f))) s).
  { rewrite (cre_ext K (h + k) _ (fun t => d * ann K (h + j) f t - cre K j (ann K k (ann K (h + j) f)) t)).
    - apply cre_split.
    - intros t Lt. rewrite anti_mixed by lia. unfold d.
      destruct (Nat.eqb_spec k j), (Nat.eqb_spec j k); try lia; ring. }
  assert (Q : cre K j (cre K (h + k) (ann K (h + j) (ann K k f))) s = cre K (h + k) (cre K j (ann K k (ann K (h + j) f))) s).
  { rewrite anti_cre by lia.
    rewrite (cre_ext K (h + k) _ (fun t => (- (1)) * cre K j (ann K k (ann K (h + j) f)) t)).
    - rewrite cre_lin. ring.
    - intros t Lt. rewrite (cre_ext K j _ (fun u => (- (1)) * ann K k (ann K (h + j) f) u)).
      + now rewrite cre_lin.
      + intros u Lu. rewrite anti_ann by lia. ring. }
  rewrite A, B, Q. unfold d. destruct (Nat.eqb_spec j k) as [->|].
  - rewrite !number. ring.
  - ring.
Qed.

(** embedding of the integers *)
Fixpoint rn (m : nat) : K := match m with O => 0 | S m' => 1 + rn m' end.
Lemma rn_add : forall a b, rn (a + b) = rn a + rn b.
Proof. induction a; simpl; intros; [ring|]. rewrite IHa. ring. Qed.
Lemma occ_count : forall m a s, (a + m <= length s)%nat ->
  rsum (fun j => if occ_at (a + j) s then 1 else 0) (seq 0 m) = rn (ones (firstn m (skipn a s))).
Proof.
  induction m; intros a s H; [reflexivity|]. rewrite <- cons_seq. cbn [rsum]. rewrite Nat.add_0_r.
  rewrite <- seq_shift, rsum_map. rewrite (rsum_ext K _ _ (fun j => if occ_at (S a + j) s then 1 else 0))
    by (intros x _; now replace (a + S x)%nat with (S a + x)%nat by lia).
  rewrite IHm by lia.
  assert (E : skipn a s = occ_at a s :: skipn (S a) s).
  { clear -H. unfold occ_at. revert s H. induction a; intros [|b s] H; simpl in *; try lia; auto. apply IHa. lia. }
  rewrite E. cbn [firstn ones]. rewrite rn_add. destruct (occ_at a s); simpl; ring.
Qed.

(** S^+ S^- - S^- S^+ = 4 (N_up - N_down), on any vector *)
Theorem spin_commutator : forall f s, length s = (h + h)%nat ->
  spin_raise (spin_lower f) s - spin_lower (spin_raise f) s =
  (two * two) * (rn (ones (firstn h s)) - rn (ones (skipn h s))) * f s.
Proof.
  intros f s Ls. rewrite spin_lower_ladder, spin_raise_ladder. rewrite !(ladder_sum _ _ (_ _ _ f)).
  rewrite (rsum_ext K _ _ (fun j => rsum (fun k => (two * two) * hop j (h + j) (hop (h + k) k f) s) (seq 0 h))).
  2: { intros j _. rewrite (hop_ext _ _ _ (fun t => rsum (fun k => two * hop (h + k) k f t) (seq 0 h))) by (intros; apply ladder_sum).
       rewrite hop_rsum, <- rsum_mul_l. apply rsum_ext. intros k _. rewrite hop_lin. ring. }
  rewrite (rsum_ext K _ (fun j => two * hop (h + j) j _ s) (fun j => rsum (fun k => (two * two) * hop (h + j) j (hop k (h + k) f) s) (seq 0 h))).
  2: { intros j _. rewrite (hop_ext _ _ _ (fun t => rsum (fun k => two * hop k (h + k) f t) (seq 0 h))) by (intros; apply ladder_sum).
       rewrite hop_rsum, <- rsum_mul_l. apply rsum_ext. intros k _. rewrite hop_lin. ring. }
  rewrite (rsum_swap K _ _ (fun j k => (two * two) * hop (h + j) j (hop k (h + k) f) s)).
  rewrite <- rsum_minus.
  rewrite (rsum_ext K _ _ (fun j => ((if occ_at j s then 1 else 0) - (if occ_at (h + j) s then 1 else 0)) * (two * two * f s))).
  - rewrite rsum_mul_r, rsum_minus. pose proof (occ_count h 0 s ltac:(lia)) as O0. cbn [Nat.add skipn] in O0. rewrite O0.
    rewrite (occ_count h h s) by lia. rewrite (firstn_all2 (skipn h s)) by (rewrite skipn_length; lia). ring.
  - intros j Hj. apply in_seq in Hj. rewrite <- rsum_minus.
    rewrite (rsum_ext K _ _ (fun k => if Nat.eqb k j then (two * two) * ((if occ_at j s then f s else 0) - (if occ_at (h + j) s then f s else 0)) else 0)).
    + rewrite (rsum_if_nat K (fun _ => _)); [|apply seq_NoDup|apply in_seq; lia].
      destruct (occ_at j s), (occ_at (h + j) s); ring.
    + intros k Hk. apply in_seq in Hk. pose proof (pair_commutator j k f s ltac:(lia) ltac:(lia) Ls) as P.
      transitivity ((two * two) * (hop j (h + j) (hop (h + k) k f) s - hop (h + k) k (hop j (h + j) f) s)); [ring|].
      rewrite P. rewrite (Nat.eqb_sym k j). destruct (Nat.eqb j k); ring.
Qed.
End SpinFock.

(** two electrons with spin up on three orbitals: S^- flips either spin *)
Example spin_lower_example :
  map (fun t => mel ZRing (spin_lower ZRing 3) t [true; false; true; false; false; false])
      [[false; false; true; true; false; false]; [true; false; false; false; false; true]; [true; true; false; false; false; false]]
  = [(-2)%Z; 2%Z; 0%Z].
Proof. reflexivity. Qed.
