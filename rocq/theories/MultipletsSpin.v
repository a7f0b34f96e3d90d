(** The matrices of S^+ between the sz blocks form a tower (Tower.v); dimensions of the blocks. *)
From Coq Require Import String ZArith List Arith Lia Bool Reals Lra.
From Verif Require Import Base Bits Indexing IndexingProofs RemoveProofs Binom SsqProofs Qn PropIndexing CRing Fock Operators OperatorsProofs
  PropOperators PropRotate SpinFock SpinOps PropSpinOps LinR Tower Multiplets MultipletsExec.
Import ListNotations.
Open Scope nat_scope.
Local Notation length := List.length.

Lemma IZR_rsum : forall f n, IZR (@rsum ZRing nat f (seq 0 n)) = sumR n (fun i => IZR (f i)).
Proof.
  intros f n. induction n as [|n IH]; auto. rewrite seq_S, rsum_app. cbn [rsum]. cbn [radd r0 ZRing]. rewrite plus_IZR, IH.
  cbn [sumR plus]. rewrite Z.add_0_r. reflexivity.
Qed.
Lemma zZ_zk : forall M k, IZR (zZ M k) = zk M k.
Proof. intros. unfold zZ, zk. rewrite minus_IZR, mult_IZR, <- !INR_IZR_INZ. reflexivity. Qed.

(** ** dimensions *)
Lemma binom_pos : forall n k, k <= n -> 1 <= binom n k.
Proof.
  induction n; intros k Hk.
  - replace k with 0 by lia. rewrite binom_0_r. lia.
  - destruct k; [rewrite binom_0_r; lia|]. rewrite binom_pascal. destruct (Nat.eq_dec k n) as [->|].
    + rewrite binom_nn. lia.
    + pose proof (IHn (S k)). lia.
Qed.
Lemma binom_strict : forall h u d, u < d -> d <= h -> binom h u * binom h (S d) < binom h (S u) * binom h d.
Proof.
  intros h u d Hu Hd. pose proof (binom_absorb h u) as A. pose proof (binom_absorb h d) as B.
  pose proof (binom_pos h u ltac:(lia)) as P. pose proof (binom_pos h d Hd) as Q.
  set (x := binom h u) in *. set (y := binom h d) in *. set (x' := binom h (S u)) in *. set (y' := binom h (S d)) in *.
  assert (A' : (u + 1) * x' = (h - u) * x) by nia. assert (B' : (d + 1) * y' = (h - d) * y) by nia.
  apply (Nat.mul_lt_mono_pos_l ((u + 1) * (d + 1))); [lia|].
  replace ((u + 1) * (d + 1) * (x * y')) with ((u + 1) * x * ((d + 1) * y')) by ring.
  replace ((u + 1) * (d + 1) * (x' * y)) with ((u + 1) * x' * ((d + 1) * y)) by ring.
  rewrite A', B'.
  replace ((u + 1) * x * ((h - d) * y)) with ((u + 1) * (h - d) * (x * y)) by ring.
  replace ((h - u) * x * ((d + 1) * y)) with ((h - u) * (d + 1) * (x * y)) by ring.
  apply Nat.mul_lt_mono_pos_r; [nia|]. nia.
Qed.
Lemma szlen_strict : forall n c k, Nat.even n = true -> 1 <= n -> c <= n -> 2 * S k <= smax n c ->
  szlen n c k < szlen n c (S k).
Proof.
  intros n c k He Hn Hc Hk. pose proof (half_split n He) as Hh.
  rewrite !szlen_val by (auto; rewrite szrange_len by auto; lia).
  unfold smax in *. set (h := Nat.div2 n) in *. destruct (Nat.leb_spec c h).
  - rewrite Nat.min_l in * by lia. replace (c - k) with (S (c - S k)) by lia. apply binom_strict; lia.
  - rewrite Nat.min_r in * by lia. replace (c - h + S k) with (S (c - h + k)) by lia.
    replace (h - k) with (S (h - S k)) by lia. apply binom_strict; lia.
Qed.
Lemma szlen_pos : forall n c k, Nat.even n = true -> 1 <= n -> c <= n -> k <= smax n c -> 1 <= szlen n c k.
Proof.
  intros n c k He Hn Hc Hk. pose proof (half_split n He) as Hh.
  rewrite !szlen_val by (auto; rewrite szrange_len by auto; lia).
  unfold smax in *. set (h := Nat.div2 n) in *. destruct (Nat.leb_spec c h).
  - rewrite Nat.min_l in * by lia. pose proof (binom_pos h k ltac:(lia)). pose proof (binom_pos h (c - k) ltac:(lia)). nia.
  - rewrite Nat.min_r in * by lia. pose proof (binom_pos h (c - h + k) ltac:(lia)). pose proof (binom_pos h (h - k) ltac:(lia)). nia.
Qed.

Section Spin.
Variables (n : nat) (indexing : string) (si : SI) (c : nat).
Hypothesis SI0 : spin_indexing n indexing si.
Hypothesis Hc : c <= n.
Let M := smax n c.
Definition blk (k : nat) : list nat := match get_lst si c (Some (zZ M k)) None with Some l => l | None => [] end.
Definition dd (k : nat) : nat := if k <=? M then length (blk k) else 0.
Definition Uu (k p q : nat) : R := IZR (sval (operator_sp c (zZ M k) si) p q).

Lemma dd_in : forall k, k <= M -> dd k = length (blk k).
Proof. intros. unfold dd. now rewrite (proj2 (Nat.leb_le k M)). Qed.
Lemma level_in : forall k, k <= M -> In (zZ M k) (szrange c n).
Proof. intros. apply szrange_in; auto. exists k. auto. Qed.
Lemma level_out : ~ In (zZ M (S M)) (szrange c n).
Proof. rewrite szrange_in by auto. intros (k & Hk & E). unfold zZ in E. fold M in Hk, E. lia. Qed.
Lemma level_below : ~ In (zZ M 0 - 2)%Z (szrange c n).
Proof. rewrite szrange_in by auto. intros (k & Hk & E). unfold zZ in E. fold M in E. lia. Qed.
Lemma blk_lst : forall k, k <= M -> get_lst si c (Some (zZ M k)) None = Some (blk k).
Proof.
  intros k Hk. unfold blk. destruct (C17_raise n indexing si c _ SI0 Hc (level_in k Hk)) as (states & E & _). now rewrite E.
Qed.
Lemma dd_szlen : forall k, k <= M -> dd k = szlen n c k.
Proof.
  intros k Hk. rewrite dd_in by auto. pose proof (blk_lst k Hk) as G. revert G. generalize (blk k) as b. intros b G.
  destruct SI0 as (Hn & He & Hix & E0).
  assert (Hix' : ix_of indexing n = IxSz \/ ix_of indexing n = IxSsq).
  { unfold ix_of. rewrite He. destruct Hix as [-> | ->]; simpl; auto. }
  assert (SZ : sz_ok si) by (rewrite E0; apply si_init_sz_ok; auto).
  assert (Esz : si_szlst si = Some (enum_szlst (construct_szlst n))).
  { rewrite E0. unfold si_init. destruct Hix' as [-> | ->]; reflexivity. }
  destruct SZ as (L & EL & HL & H). assert (En : si_nsingle si = n) by (rewrite E0; apply init_n). rewrite En in *.
  assert (EQL : L = enum_szlst (construct_szlst n)) by congruence. destruct (H c Hc) as [HL2 _].
  unfold get_lst in G. rewrite EL, En in G. rewrite (nth_error_of_nth _ []) in G by lia.
  rewrite (sz_pos n c Hc), py_nth_nat in G. rewrite (nth_error_of_nth _ []) in G by (rewrite HL2, szrange_len by auto; fold M; lia).
  injection G as <-. rewrite EQL. apply enum_szlst_len; auto.
Qed.
Lemma dd_sym : forall k, k <= M -> dd k = dd (M - k).
Proof. intros k Hk. destruct SI0 as (Hn & He & _). rewrite !dd_szlen by lia. now apply szlen_sym. Qed.
Lemma dd_top : dd (S M) = 0.
Proof. unfold dd. now rewrite (proj2 (Nat.leb_gt (S M) M)) by lia. Qed.
(** above the middle the dimension decreases strictly *)
Lemma dd_strict : forall m, m <= M -> M <= 2 * m -> dd (S m) < dd m.
Proof.
  intros m Hm H2. destruct SI0 as (Hn & He & _). destruct (Nat.eq_dec m M) as [->|Hne].
  - rewrite dd_top, dd_szlen by auto. pose proof (szlen_pos n c M He Hn Hc ltac:(auto)). lia.
  - rewrite (dd_sym (S m)), (dd_sym m) by lia. rewrite !dd_szlen by lia. replace (M - m) with (S (M - S m)) by lia.
    apply szlen_strict; auto. fold M. lia.
Qed.

(** ** S^+ and S^- between neighbouring levels *)
Lemma sp_form : forall k, S k <= M -> exists m m', operator_sp c (zZ M k) si = Some (SMat (dd (S k)) (dd k) m) /\
  operator_sm c (zZ M (S k)) si = Some (SMat (dd k) (dd (S k)) m') /\
  forall p q, p < dd (S k) -> q < dd k -> m p q = m' q p.
Proof.
  intros k Hk. assert (Z1 : (zZ M k + 2)%Z = zZ M (S k)) by (unfold zZ; lia). assert (Z2 : (zZ M (S k) - 2)%Z = zZ M k) by (unfold zZ; lia).
  destruct (C17_raise n indexing si c _ SI0 Hc (level_in k ltac:(lia))) as (st0 & E0 & [(_ & st1 & m & E1 & EM & _)|(N & _)]).
  2: { exfalso. apply N. rewrite Z1. apply level_in. auto. }
  rewrite Z1 in E1. rewrite blk_lst in E0 by lia. rewrite blk_lst in E1 by lia. injection E0 as <-. injection E1 as <-.
  destruct (C17_transpose n indexing si c (zZ M (S k)) SI0 Hc) as (d & d' & ms & mp & Es & Ep & T).
  { apply level_in; auto. } { rewrite Z2. apply level_in; lia. }
  rewrite Z2 in Ep. rewrite EM in Ep. injection Ep as <- <- <-. rewrite <- !dd_in in * by lia.
  exists m, ms. split; auto.
Qed.
Lemma sm_sp_high : forall k p q, k <= M -> p < dd k -> q < dd k -> IZR (sval (sm_sp c (zZ M k) si) p q) = highsum dd Uu k p q.
Proof.
  intros k p q Hk Hp Hq. assert (En : si_nsingle si = n) by (destruct SI0 as (_ & _ & _ & ->); apply init_n).
  unfold highsum, Uu, sm_sp. rewrite En, (szmax_M n c Hc). fold M.
  destruct (Nat.eq_dec k M) as [->|Hne].
  - rewrite (proj2 (Z.leb_gt _ _)) by (unfold zZ; lia). rewrite dd_top. reflexivity.
  - rewrite (proj2 (Z.leb_le _ _)) by (unfold zZ; lia). destruct (sp_form k ltac:(lia)) as (m & m' & E & E' & T).
    replace (zZ M k + 2)%Z with (zZ M (S k)) by (unfold zZ; lia). rewrite E, E'. cbn [sdot]. rewrite Nat.eqb_refl. cbn [sval].
    rewrite IZR_rsum. apply sumR_ext. intros i Hi. rewrite mult_IZR. rewrite (T i p) by auto. reflexivity.
Qed.
Lemma sp_sm_low : forall k p q, k <= M -> p < dd k -> q < dd k -> IZR (sval (sp_sm c (zZ M k) si) p q) = lowsum dd Uu k p q.
Proof.
  intros k p q Hk Hp Hq. assert (En : si_nsingle si = n) by (destruct SI0 as (_ & _ & _ & ->); apply init_n).
  unfold sp_sm. rewrite En, (szmax_M n c Hc). fold M. rewrite Z.geb_leb. destruct k as [|k].
  - rewrite (proj2 (Z.leb_gt _ _)) by (unfold zZ; lia). reflexivity.
  - rewrite (proj2 (Z.leb_le _ _)) by (unfold zZ; lia). destruct (sp_form k ltac:(lia)) as (m & m' & E & E' & T).
    cbn [lowsum]. unfold Uu.
    replace (zZ M (S k) - 2)%Z with (zZ M k) by (unfold zZ; lia). rewrite E, E'. cbn [sdot]. rewrite Nat.eqb_refl. cbn [sval].
    rewrite IZR_rsum. apply sumR_ext. intros i Hi. rewrite mult_IZR. rewrite (T q i) by auto. reflexivity.
Qed.
Theorem spin_tower : tower M dd Uu.
Proof.
  split; [apply dd_top|]. intros k p q Hk Hp Hq.
  destruct (C17_commutator n indexing si c _ SI0 Hc (level_in k Hk)) as (st0 & E0 & _ & _ & CM).
  rewrite blk_lst in E0 by auto. injection E0 as <-. rewrite <- dd_in in CM by auto.
  rewrite <- sm_sp_high, <- sp_sm_low by auto. rewrite <- minus_IZR, CM by auto. rewrite <- zZ_zk. unfold delta.
  destruct (p =? q)%nat; [rewrite mult_IZR; ring|ring].
Qed.
(** S^2 *)
Theorem ssq_form : forall k, k <= M -> exists m, operator_ssquare c (zZ M k) si = Some (SMat (dd k) (dd k) m) /\
  (forall p q, p < dd k -> q < dd k -> m p q = m q p) /\
  forall p v, p < dd k -> sumR (dd k) (fun q => (IZR (m p q) * v q)%R) = ssq M dd Uu k v p.
Proof.
  intros k Hk. destruct (C17_ssquare n indexing si c _ SI0 Hc (level_in k Hk)) as (st0 & m & E0 & EM & V).
  rewrite blk_lst in E0 by auto. injection E0 as <-. rewrite <- dd_in in * by auto. exists m. split; auto. split.
  - intros p q Hp Hq. apply (V p q Hp Hq).
  - intros p v Hp. unfold ssq, dn, up.
    rewrite (sumR_ext (dd k) _ (fun q => (highsum dd Uu k p q * v q + (if q =? p then 1 else 0) * (zk M k * (zk M k + 2) * v q))%R)).
    + rewrite sumR_plus. rewrite (sumR_delta (dd k) p) by auto. f_equal. unfold highsum.
      rewrite (sumR_ext (dd k) _ (fun q => sumR (dd (S k)) (fun r => (Uu k r p * Uu k r q * v q)%R))) by (intros; now rewrite sumR_mul_r).
      rewrite sumR_swap. apply sumR_ext. intros r _. rewrite <- sumR_mul_l. apply sumR_ext. intros. ring.
    + intros q Hq. destruct (V p q Hp Hq) as (_ & _ & _ & ->). rewrite <- sm_sp_high by auto. rewrite plus_IZR, mult_IZR.
      rewrite mult_IZR, plus_IZR, zZ_zk. rewrite (Nat.eqb_sym q p). destruct (p =? q); ring.
Qed.
End Spin.
