(** The loops of Multiplets.v: which cell is written where. *)
From Coq Require Import String ZArith List Arith Lia Bool Reals.
From Verif Require Import Base Bits Indexing IndexingProofs RemoveProofs Binom SsqProofs CRing Operators PropRotate SpinOps Multiplets.
Import ListNotations.
Open Scope nat_scope.
Local Notation length := List.length.
Local Notation C := (Cx RRing).

Lemma py_set_nat : forall A (l : list A) k v, k < length l -> py_set l (Z.of_nat k) v = Some (set_nth k v l).
Proof.
  intros. unfold py_set. rewrite (proj2 (Z.leb_le 0 _)) by lia. rewrite (proj2 (Z.ltb_lt _ _)) by lia. now rewrite Nat2Z.id.
Qed.
Lemma ofold_app : forall A X (f : X -> A -> option X) l l' s,
  ofold f (l ++ l') s = match ofold f l s with Some s' => ofold f l' s' | None => None end.
Proof. induction l; simpl; intros; auto. destruct (f s a); auto. Qed.

Section Levels.
Variable M : nat.
Definition zZ (k : nat) : Z := (2 * Z.of_nat k - Z.of_nat M)%Z.
(** smallest label of a multiplet present at level k *)
Definition lo (k : nat) : nat := Nat.max k (M - k).
Definition rowlen (k : nat) : nat := S M - lo k.
Definition pos (k m : nat) : nat := m - lo k.

Lemma lo_le : forall k, k <= M -> lo k <= M.
Proof. intros. unfold lo. lia. Qed.
Lemma zZ_abs : forall k, k <= M -> Z.abs (zZ k) = zZ (lo k).
Proof. intros. unfold zZ, lo. lia. Qed.
Lemma ssq_pos : forall k m, k <= M -> lo k <= m -> ssq_to_ind (zZ m) (zZ k) = Z.of_nat (pos k m).
Proof.
  intros k m Hk Hm. unfold ssq_to_ind, pos. rewrite zZ_abs by auto. unfold zZ.
  replace (2 * Z.of_nat m - Z.of_nat M - (2 * Z.of_nat (lo k) - Z.of_nat M))%Z with (Z.of_nat (m - lo k) * 2)%Z by lia.
  now rewrite Z.quot_mul.
Qed.

Definition shape (s : store) : Prop := length s = S M /\ forall k, k <= M -> length (nth k s []) = rowlen k.
Definition at2 (s : store) (k t : nat) : option cell :=
  match nth_error s k with Some row => match nth_error row t with Some (Some x) => Some x | _ => None end | None => None end.
Lemma sget_nat : forall s k t, sget s (Z.of_nat k) (Z.of_nat t) = at2 s k t.
Proof.
  intros. unfold sget, at2. rewrite py_nth_nat. destruct (nth_error s k); auto. now rewrite py_nth_nat.
Qed.
Lemma sput_ok : forall s k t x, shape s -> k <= M -> t < rowlen k ->
  exists s', sput s (Z.of_nat k) (Z.of_nat t) x = Some s' /\ shape s' /\ at2 s' k t = Some x /\
    forall k' t', k' <> k \/ t' <> t -> at2 s' k' t' = at2 s k' t'.
Proof.
  intros s k t x (L1 & L2) Hk Ht. unfold sput. rewrite py_nth_nat. rewrite (nth_error_of_nth _ []) by lia.
  set (row := nth k s []). assert (LR : length row = rowlen k) by (apply L2; auto).
  rewrite py_set_nat by lia. rewrite py_set_nat by lia. eexists. split; [reflexivity|]. split; [|split].
  - split; [now rewrite set_nth_length|]. intros k' Hk'. destruct (Nat.eq_dec k' k) as [->|].
    + rewrite nth_set_same by lia. now rewrite set_nth_length.
    + rewrite nth_set_other by auto. auto.
  - unfold at2. rewrite nth_error_set_same by lia. now rewrite nth_error_set_same by lia.
  - intros k' t' H. unfold at2. destruct (Nat.eq_dec k' k) as [->|].
    + rewrite nth_error_set_same by lia. rewrite nth_error_set_other by (destruct H; auto).
      rewrite (nth_error_of_nth s []) by lia. reflexivity.
    + now rewrite nth_error_set_other by auto.
Qed.

(** one pass: for every label the cell at level k' is made from the cell at level k (or from nothing) *)
Lemma pass_ok : forall (f : store -> Z -> option store) (make : store -> nat -> option cell) k' ls s,
  shape s -> k' <= M -> NoDup ls -> (forall m, In m ls -> lo k' <= m <= M) ->
  (forall s0 m, shape s0 -> In m ls -> f s0 (zZ m) = match make s0 m with
                                       | Some y => sput s0 (Z.of_nat k') (Z.of_nat (pos k' m)) y | None => None end) ->
  (forall s0 m, In m ls -> (forall k1 t, k1 <> k' -> at2 s0 k1 t = at2 s k1 t) -> make s0 m = make s m) ->
  (forall m, In m ls -> make s m <> None) ->
  exists s', ofold f (map zZ ls) s = Some s' /\ shape s' /\
    (forall m, In m ls -> at2 s' k' (pos k' m) = make s m) /\
    (forall k1 t, k1 <> k' -> at2 s' k1 t = at2 s k1 t).
Proof.
  intros f make k' ls s SH Hk' ND LB Hf LOC EX.
  assert (G : forall s0 ls0, incl ls0 ls -> NoDup ls0 -> shape s0 -> (forall k1 t, k1 <> k' -> at2 s0 k1 t = at2 s k1 t) ->
    exists s', ofold f (map zZ ls0) s0 = Some s' /\ shape s' /\ (forall m, In m ls0 -> at2 s' k' (pos k' m) = make s m) /\
      (forall m, In m ls -> ~ In m ls0 -> at2 s' k' (pos k' m) = at2 s0 k' (pos k' m)) /\
      (forall k1 t, k1 <> k' -> at2 s' k1 t = at2 s k1 t)).
  { intros s0 ls0. revert s0. induction ls0 as [|m ls0 IH]; intros s0 IN ND0 SH0 OT; simpl.
    - exists s0. repeat split; auto; try apply SH0. intros m [].
    - inversion ND0 as [|? ? N1 N2]; subst. assert (Im : In m ls) by (apply IN; now left).
      rewrite (Hf s0 m) by auto. rewrite (LOC s0 m) by auto. destruct (make s m) as [y|] eqn:Ey; [|now elim (EX m Im)].
      destruct (LB m Im) as [B1 B2].
      destruct (sput_ok s0 k' (pos k' m) y SH0 Hk') as (s1 & E1 & SH1 & A1 & O1).
      { unfold rowlen, pos. lia. }
      rewrite E1. destruct (IH s1) as (s' & E' & SH' & A' & K' & O'); auto.
      + intros x Hx. apply IN. now right.
      + intros k1 t H1. rewrite O1 by auto. auto.
      + exists s'. split; auto. split; auto. split; [|split; auto].
        * intros m0 [<-|Hm0]; auto. rewrite (K' m Im N1). congruence.
        * intros m0 Im0 Hn. rewrite K' by (auto; intros Q; apply Hn; now right). apply O1. right.
          destruct (LB m0 Im0). unfold pos. intros Q. apply Hn. left. lia. }
  destruct (G s ls) as (s' & E & SH' & A & _ & O); auto; [intros ? ?; auto|]. exists s'. repeat split; auto; apply SH'.
Qed.
End Levels.

(** ** the ranges of the code *)
Section Ranges.
Variables (n c : nat).
Hypothesis Ev : Nat.even n = true.
Hypothesis Hc : c <= n.
Let M := smax n c.

Lemma szmax_M : szmax c n = Z.of_nat M. Proof. now apply smax_szmax. Qed.
Definition low_level : nat := Nat.div2 M.
Lemma low_twice : M = 2 * low_level \/ M = 2 * low_level + 1.
Proof.
  unfold low_level. pose proof (Nat.div2_odd M) as H. destruct (Nat.odd M); cbn [Nat.b2n] in H; lia.
Qed.
Lemma szlow_level : (- (Z.of_nat c mod 2))%Z = zZ M low_level.
Proof.
  rewrite (parity_smax n c Ev Hc). fold M. unfold zZ. pose proof low_twice as T. revert T.
  generalize low_level as q. generalize M as m. intros m q [E|E]; subst m.
  - replace (Z.of_nat (2 * q)) with (0 + Z.of_nat q * 2)%Z by lia. rewrite Z.mod_add by lia. change (0 mod 2)%Z with 0%Z. lia.
  - replace (Z.of_nat (2 * q + 1)) with (1 + Z.of_nat q * 2)%Z by lia. rewrite Z.mod_add by lia. change (1 mod 2)%Z with 1%Z. lia.
Qed.
Lemma ssqrange_level : forall k, k <= M -> ssqrange c (zZ M k) n = map (zZ M) (seq (lo M k) (rowlen M k)).
Proof.
  intros k Hk. unfold ssqrange, range2. rewrite szmax_M, zZ_abs by auto.
  replace (Z.to_nat ((Z.of_nat M + 1 - zZ M (lo M k) + 1) / 2)) with (rowlen M k).
  - rewrite <- (map_map (fun i => lo M k + i) (zZ M)) || idtac.
    replace (seq (lo M k) (rowlen M k)) with (map (fun i => lo M k + i) (seq 0 (rowlen M k))).
    + rewrite map_map. apply map_ext. intros i. unfold zZ. lia.
    + clear. generalize (lo M k) as x. induction (rowlen M k) as [|w IH]; intros x; auto. cbn [seq map].
      f_equal; [lia|]. rewrite <- seq_shift, map_map. rewrite <- (IH (S x)). apply map_ext. intros. lia.
  - unfold zZ, rowlen. pose proof (lo_le M k Hk).
    replace (Z.of_nat M + 1 - (2 * Z.of_nat (lo M k) - Z.of_nat M) + 1)%Z with ((Z.of_nat M + 1 - Z.of_nat (lo M k)) * 2)%Z by lia.
    rewrite Z.div_mul by lia. lia.
Qed.
Lemma sz_pos : forall k, sz_to_ind (zZ M k) c n = Z.of_nat k.
Proof.
  intros k. unfold sz_to_ind. rewrite szmax_M. unfold zZ. replace (Z.of_nat M + (2 * Z.of_nat k - Z.of_nat M))%Z with (Z.of_nat k * 2)%Z by lia.
  now rewrite Z.quot_mul.
Qed.
Lemma szrange_levels : szrange c n = map (zZ M) (seq 0 (S M)).
Proof. exact (szrange_map n c Hc). Qed.
Lemma up_range : range2 (zZ M low_level) (szmax c n - 1) = map (zZ M) (seq low_level (M - low_level)).
Proof.
  unfold range2. rewrite szmax_M.
  replace (Z.to_nat ((Z.of_nat M - 1 - zZ M low_level + 1) / 2)) with (M - low_level).
  - replace (seq low_level (M - low_level)) with (map (fun i => low_level + i) (seq 0 (M - low_level))).
    + rewrite map_map. apply map_ext. intros i. unfold zZ. lia.
    + generalize (M - low_level) as w. generalize low_level as x. intros x w. revert x. induction w as [|w IH]; intros x; auto. cbn [seq map].
      f_equal; [lia|]. rewrite <- seq_shift, map_map. rewrite <- (IH (S x)). apply map_ext. intros. lia.
  - unfold zZ. pose proof low_twice.
    replace (Z.of_nat M - 1 - (2 * Z.of_nat low_level - Z.of_nat M) + 1)%Z with ((Z.of_nat M - Z.of_nat low_level) * 2)%Z by lia.
    rewrite Z.div_mul by lia. lia.
Qed.
Lemma down_range : range2_down (zZ M low_level) (- szmax c n + 1) = map (fun i => zZ M (low_level - i)) (seq 0 low_level).
Proof.
  unfold range2_down. rewrite szmax_M.
  replace (Z.to_nat ((zZ M low_level - (- Z.of_nat M + 1) + 1) / 2)) with low_level.
  - apply map_ext_in. intros i Hi. apply in_seq in Hi. unfold zZ. lia.
  - unfold zZ.
    replace (2 * Z.of_nat low_level - Z.of_nat M - (- Z.of_nat M + 1) + 1)%Z with (Z.of_nat low_level * 2)%Z by lia.
    rewrite Z.div_mul by lia. lia.
Qed.
Lemma empty_shape : shape M (map (fun j => map (fun _ => None) (ssqrange c j n)) (szrange c n)).
Proof.
  rewrite szrange_levels, map_map. split; [now rewrite map_length, seq_length|]. intros k Hk.
  rewrite nth_map_seq by lia. rewrite map_length. rewrite ssqrange_level by auto. now rewrite map_length, seq_length.
Qed.
End Ranges.

(** ** the ladders *)
Section Exec.
Variables (n c : nat) (si : SI).
Hypothesis En : si_nsingle si = n.
Hypothesis Ev : Nat.even n = true.
Hypothesis Hc : c <= n.
Let M := smax n c.
Let a := low_level n c.
Lemma x_range : forall k, k <= M -> ssqrange c (zZ M k) n = map (zZ M) (seq (lo M k) (rowlen M k)).
Proof. exact (ssqrange_level n c Hc). Qed.
Lemma x_sz : forall k, sz_to_ind (zZ M k) c n = Z.of_nat k.
Proof. exact (sz_pos n c Hc). Qed.
Lemma x_low : (- (Z.of_nat c mod 2))%Z = zZ M a.
Proof. exact (szlow_level n c Ev Hc). Qed.
Lemma x_up : range2 (zZ M a) (szmax c n - 1) = map (zZ M) (seq a (M - a)).
Proof. exact (up_range n c Hc). Qed.
Lemma x_down : range2_down (zZ M a) (- szmax c n + 1) = map (fun i => zZ M (a - i)) (seq 0 a).
Proof. exact (down_range n c Hc). Qed.
Lemma x_twice : M = 2 * a \/ M = 2 * a + 1.
Proof. exact (low_twice n c Hc). Qed.
Lemma x_shape : shape M (map (fun j => map (fun _ => None) (ssqrange c j n)) (szrange c n)).
Proof. exact (empty_shape n c Hc). Qed.
Variable E : nat -> nat -> cell.  (** the cell expected at (level, label) *)
Definition fits (s : store) (k : nat) : Prop := forall m, lo M k <= m <= M -> at2 s k (pos M k m) = Some (E k m).
Definition factor (m k k' : nat) : R := sqrt (IZR (zZ M m * (zZ M m + 2) - zZ M k * zZ M k')).

Hypothesis UP : forall k m, a <= k < M -> S k <= m <= M -> apply_op (operator_sp c (zZ M k) si) (factor m k (S k)) (E k m) = Some (E (S k) m).
Hypothesis DOWN : forall k m, S k <= a -> M - k <= m <= M -> apply_op (operator_sm c (zZ M (S k)) si) (factor m (S k) k) (E (S k) m) = Some (E k m).

Lemma zZ_up : forall k, (zZ M k + 2)%Z = zZ M (S k). Proof. intros. unfold zZ. lia. Qed.
Lemma zZ_down : forall k, (zZ M (S k) - 2)%Z = zZ M k. Proof. intros. unfold zZ. lia. Qed.

Lemma one_pass : forall k k' op s, shape M s -> k <= M -> k' <= M -> k <> k' -> lo M k <= lo M k' -> fits s k ->
  (forall m, lo M k' <= m <= M -> apply_op op (factor m k k') (E k m) = Some (E k' m)) ->
  exists s', ofold (ladder_step c n (zZ M k) (zZ M k') op) (ssqrange c (zZ M k') n) s = Some s' /\ shape M s' /\ fits s' k' /\
    forall k1 t, k1 <> k' -> at2 s' k1 t = at2 s k1 t.
Proof.
  intros k k' op s SH Hk Hk' Hne LO F AP. rewrite (x_range k' Hk').
  destruct (pass_ok M (ladder_step c n (zZ M k) (zZ M k') op)
    (fun s0 m => match at2 s0 k (pos M k m) with Some x => apply_op op (factor m k k') x | None => None end)
    k' (seq (lo M k') (rowlen M k')) s SH Hk') as (s' & E' & SH' & A' & O').
  - apply seq_NoDup.
  - intros m Hm. apply in_seq in Hm. unfold rowlen in Hm. lia.
  - intros s0 m _ Hm. apply in_seq in Hm. unfold rowlen in Hm. unfold ladder_step.
    rewrite !x_sz. rewrite !ssq_pos by lia. rewrite sget_nat.
    destruct (at2 s0 k (pos M k m)); auto.
  - intros s0 m _ O. rewrite O by auto. reflexivity.
  - intros m Hm. apply in_seq in Hm. unfold rowlen in Hm. rewrite F by lia. rewrite AP by lia. discriminate.
  - exists s'. split; auto. split; auto. split; auto. intros m Hm. rewrite A' by (apply in_seq; unfold rowlen; lia).
    rewrite F by lia. apply AP. lia.
Qed.
Lemma a_le : a <= M. Proof. destruct x_twice; lia. Qed.

Lemma up_loop : forall i s, a + i <= M -> shape M s -> fits s a ->
  exists s', ofold (ups_pass c si) (map (zZ M) (seq a i)) s = Some s' /\ shape M s' /\
    (forall k, a <= k <= a + i -> fits s' k).
Proof.
  intros i s Hi SH F. assert (A : exists s', ofold (ups_pass c si) (map (zZ M) (seq a i)) s = Some s' /\ shape M s' /\
    (forall k, a <= k <= a + i -> fits s' k)).
  { induction i as [|i IH].
    - exists s. cbn. repeat split; auto; try apply SH. intros k Hk. replace k with a by lia. auto.
    - destruct IH as (s1 & E1 & SH1 & F1); [lia|]. rewrite seq_S, map_app, ofold_app, E1. cbn [map ofold].
      unfold ups_pass. rewrite En, zZ_up.
      destruct x_twice as [T|T];
      (destruct (one_pass (a + i) (S (a + i)) (operator_sp c (zZ M (a + i)) si) s1 SH1) as (s' & E' & SH' & F' & O');
        [lia|lia|lia|unfold lo; lia|apply F1; lia|intros m Hm; apply UP; unfold lo in Hm; lia|];
       exists s'; rewrite E'; split; auto; split; auto; intros k Hk; destruct (Nat.eq_dec k (S (a + i))) as [->|]; auto;
       intros m Hm; rewrite O' by auto; apply F1; auto; lia). }
  exact A.
Qed.
Lemma down_loop : forall i s, i <= a -> shape M s -> (forall k, a <= k <= M -> fits s k) ->
  exists s', ofold (downs_pass c si) (map (fun i => zZ M (a - i)) (seq 0 i)) s = Some s' /\ shape M s' /\
    (forall k, a - i <= k <= M -> fits s' k).
Proof.
  intros i s Hi SH F. induction i as [|i IH].
  - exists s. cbn. repeat split; auto; try apply SH. intros k Hk. apply F. lia.
  - destruct IH as (s1 & E1 & SH1 & F1); [lia|]. rewrite seq_S, map_app, ofold_app, E1. cbn [map ofold plus].
    assert (Z1 : a - i = S (a - S i)) by lia. pose proof a_le as AL. rewrite Z1.
    unfold downs_pass. rewrite En, zZ_down.
    destruct x_twice as [T|T];
    (destruct (one_pass (S (a - S i)) (a - S i) (operator_sm c (zZ M (S (a - S i))) si) s1 SH1) as (s' & E' & SH' & F' & O');
      [lia|lia|lia|unfold lo; lia|rewrite <- Z1; apply F1; lia|intros m Hm; apply DOWN; unfold lo in Hm; lia|];
     exists s'; rewrite E'; split; auto; split; auto; intros k Hk; destruct (Nat.eq_dec k (a - S i)) as [->|]; auto;
     intros m Hm; rewrite O' by auto; apply F1; auto; lia).
Qed.

(** ** the level where S^2 and the Hamiltonian are diagonalised *)
Variable eigh_real : nat -> (nat -> nat -> R) -> (nat -> R) * (nat -> nat -> R).
Variable eigh_cplx : nat -> (nat -> nat -> C) -> (nat -> R) * (nat -> nat -> C).
Variables (d : nat) (S2 : nat -> nat -> Z) (ham : nat -> nat -> C) (V : nat -> rarr) (statelst : list nat).
Hypothesis LST : get_lst si c (Some (zZ M a)) None = Some statelst.
Hypothesis LEN : length statelst = d.
Hypothesis SQ : operator_ssquare c (zZ M a) si = Some (SMat d d S2).
Definition labels_of : list Z :=
  map (fun j => rint (-1 + sqrt (1 + fst (eigh_real d (fun p q => IZR (S2 p q))) j))) (seq 0 d).
Hypothesis SLICE : forall m, lo M a <= m <= M ->
  ssq_slice d (snd (eigh_real d (fun p q => IZR (S2 p q)))) (positions labels_of (zZ M m)) = Some (V m).
Hypothesis START : forall m, lo M a <= m <= M ->
  E a m = mkCell d (ra_cols (V m)) (fst (eigh_cplx (ra_cols (V m)) (project d ham (ra_at (V m)))))
            (expand (ra_cols (V m)) (ra_at (V m)) (snd (eigh_cplx (ra_cols (V m)) (project d ham (ra_at (V m)))))).

Lemma eigenstates_ok : exists L, ssquare_eigenstates eigh_real c (zZ M a) si = Some L /\
  forall m, lo M a <= m <= M -> nth_error L (pos M a m) = Some (Some (V m)).
Proof.
  unfold ssquare_eigenstates. rewrite SQ, Nat.eqb_refl, En.
  assert (PAR : (Z.of_nat c mod 2 =? zZ M a mod 2)%Z = true).
  { apply Z.eqb_eq. rewrite <- x_low. pose proof (Z.mod_pos_bound (Z.of_nat c) 2 ltac:(lia)) as B. revert B.
    generalize (Z.of_nat c mod 2)%Z as r. intros r B. assert (r = 0 \/ r = 1)%Z as [-> | ->] by lia; reflexivity. }
  rewrite PAR. cbn [negb]. destruct (eigh_real d (fun p q => IZR (S2 p q))) as [val vec] eqn:EQ. unfold labels_of in SLICE. rewrite EQ in SLICE.
  cbn [fst snd] in SLICE. pose proof a_le as AL. rewrite (x_range _ AL).
  set (f := fun (acc : list (option rarr)) ssq => _).
  assert (G : forall ls acc, incl ls (seq (lo M a) (rowlen M a)) -> NoDup ls -> length acc = rowlen M a ->
    exists L, ofold f (map (zZ M) ls) acc = Some L /\ length L = rowlen M a /\
      (forall m, In m ls -> nth_error L (pos M a m) = Some (Some (V m))) /\
      (forall m, lo M a <= m <= M -> ~ In m ls -> nth_error L (pos M a m) = nth_error acc (pos M a m))).
  { induction ls as [|m ls IH]; intros acc IN ND LA.
    - exists acc. cbn. repeat split; auto. intros m [].
    - inversion ND as [|? ? N1 N2]; subst. pose proof (IN m (or_introl eq_refl)) as Im. apply in_seq in Im.
      assert (B : lo M a <= m <= M) by (unfold rowlen in Im; lia).
      cbn [map ofold]. unfold f at 1. rewrite SLICE by auto. rewrite ssq_pos by (auto; lia).
      rewrite py_set_nat by (rewrite LA; unfold pos, rowlen in *; lia).
      destruct (IH (set_nth (pos M a m) (Some (V m)) acc)) as (L & EL & LL & AL' & OL); auto.
      { intros x Hx. apply IN. now right. }
      { now rewrite set_nth_length. }
      exists L. split; auto. split; auto. split.
      + intros m' [<-|Hm']; auto. rewrite OL by auto. apply nth_error_set_same. rewrite LA. unfold pos, rowlen in *. lia.
      + intros m' B' Hn. rewrite OL by (auto; intros Q; apply Hn; now right). apply nth_error_set_other.
        unfold pos. intros Q. apply Hn. left. lia. }
  destruct (G (seq (lo M a) (rowlen M a)) (map (fun _ => None) (map (zZ M) (seq (lo M a) (rowlen M a))))) as (L & EL & _ & AL' & _).
  - intros x Hx; auto.
  - apply seq_NoDup.
  - now rewrite !map_length, seq_length.
  - exists L. split; auto. intros m Hm. apply AL'. apply in_seq. unfold rowlen. lia.
Qed.

Theorem exec_ok : exists s, eigenstates_ssq_all eigh_real eigh_cplx c ham si = Some s /\ shape M s /\ forall k, k <= M -> fits s k.
Proof.
  destruct eigenstates_ok as (L & EL & AL). unfold eigenstates_ssq_all. rewrite En. rewrite x_low.
  rewrite LST, EL. pose proof a_le as Ha. rewrite x_sz, (x_range a Ha).
  pose proof x_shape as SH0. set (s0 := map _ (szrange c n)) in *.
  destruct (pass_ok M (low_step eigh_cplx (length statelst) ham L (Z.of_nat a) (zZ M a)) (fun _ m => Some (E a m)) a (seq (lo M a) (rowlen M a)) s0)
    as (s1 & E1 & SH1 & A1 & _); auto.
  - apply seq_NoDup.
  - intros m Hm. apply in_seq in Hm. unfold rowlen in Hm. lia.
  - intros s m _ Hm. apply in_seq in Hm. unfold rowlen in Hm. unfold low_step. rewrite ssq_pos by lia. rewrite py_nth_nat.
    rewrite AL by lia. pose proof (SLICE m ltac:(lia)) as Q. unfold ssq_slice in Q.
    assert (R : ra_rows (V m) = d) by (destruct (positions labels_of (zZ M m)); [discriminate|]; injection Q as <-; reflexivity).
    rewrite R, LEN, Nat.eqb_refl. rewrite (START m) by lia. destruct (eigh_cplx _ _) as [vv ww]. reflexivity.
  - intros m _. discriminate.
  - rewrite E1. rewrite x_up.
    destruct (up_loop (M - a) s1) as (s2 & E2 & SH2 & F2); [lia|auto| |].
    + intros m Hm. rewrite A1; auto. apply in_seq. unfold rowlen. lia.
    + rewrite E2. rewrite x_down.
      destruct (down_loop a s2) as (s3 & E3 & SH3 & F3); auto.
      * intros k Hk. apply F2. lia.
      * exists s3. split; auto. split; auto. intros k Hk. apply F3. lia.
Qed.
End Exec.
