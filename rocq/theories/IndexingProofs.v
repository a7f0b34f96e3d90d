(** Proofs about the state indexing model (Indexing.v). *)
From Coq Require Import String List Arith Lia ZArith Bool Permutation.
From Verif Require Import Base Bits Indexing.
Import ListNotations.
Open Scope nat_scope.
Local Notation length := List.length.

(** Occupation list of a Lin index. *)
Definition occ (n k : nat) : list bool := integer_to_binarylist k n.
Definition occ_charge (n k : nat) : nat := charge_of (occ n k).
Definition occ_sz (n k : nat) : Z := sz_of n (occ n k).
Definition occ_szind (n k : nat) : nat := Z.to_nat (sz_to_ind (occ_sz n k) (occ_charge n k) n).

Lemma occ_charge_le : forall n k, k < 2 ^ n -> occ_charge n k <= n.
Proof.
  intros n k H. unfold occ_charge, occ. destruct n.
  - simpl in H. assert (k = 0) by lia. subst. reflexivity.
  - rewrite itb_bits by (auto; lia). rewrite <- (bits_length (S n) k) at 2. apply charge_of_le.
Qed.

(** ** chargelst *)
Lemma construct_chargelst_spec : forall n,
  construct_chargelst n =
  map (fun c => filter (fun k => occ_charge n k =? c) (seq 0 (2 ^ n))) (seq 0 (n + 1)).
Proof. intros. unfold construct_chargelst. apply bucket_spec. Qed.

Lemma construct_chargelst_perm : forall n,
  Permutation (flatten (construct_chargelst n)) (seq 0 (2 ^ n)).
Proof.
  intros. rewrite construct_chargelst_spec. apply concat_buckets_perm.
  intros x Hx. apply in_seq in Hx. pose proof (occ_charge_le n x). lia.
Qed.

(** ** szlst: the index arithmetic *)
Lemma szrange_length : forall c n, c <= n -> length (szrange c n) = Z.to_nat (szmax c n + 1).
Proof.
  intros. unfold szrange, range2. rewrite map_length, seq_length.
  f_equal. unfold szmax.
  replace (Z.min (Z.of_nat c) (Z.of_nat n - Z.of_nat c) + 1
           - - Z.min (Z.of_nat c) (Z.of_nat n - Z.of_nat c) + 1)%Z
    with ((Z.min (Z.of_nat c) (Z.of_nat n - Z.of_nat c) + 1) * 2)%Z by lia.
  apply Z.div_mul. lia.
Qed.

Lemma szmax_nonneg : forall c n, c <= n -> (0 <= szmax c n)%Z.
Proof. intros. unfold szmax. lia. Qed.

(** On the k-th entry of szrange, sz_to_ind gives back k. *)
Lemma sz_to_ind_szrange : forall c n k, c <= n -> k < length (szrange c n) ->
  sz_to_ind (nth k (szrange c n) 0%Z) c n = Z.of_nat k.
Proof.
  intros c n k Hc Hk. unfold szrange, range2 in *. rewrite map_length, seq_length in Hk.
  rewrite nth_map_seq by auto. unfold sz_to_ind.
  replace (szmax c n + (- szmax c n + 2 * Z.of_nat k))%Z with (Z.of_nat k * 2)%Z by lia.
  apply Z.quot_mul. lia.
Qed.

Lemma half_split : forall n, Nat.even n = true -> n = Nat.div2 n + Nat.div2 n.
Proof.
  intros n H. pose proof (Nat.div2_odd n) as E. rewrite <- Nat.negb_even, H in E. simpl in E. lia.
Qed.

(** up/down electron numbers of an occupation list *)
Definition nup (n : nat) (s : list bool) := charge_of (firstn (Nat.div2 n) s).
Definition ndn (n : nat) (s : list bool) := charge_of (skipn (Nat.div2 n) s).

Lemma nup_ndn : forall n s, nup n s + ndn n s = charge_of s.
Proof. intros. unfold nup, ndn. rewrite <- charge_of_app. now rewrite firstn_skipn. Qed.

Lemma nup_le : forall n s, nup n s <= Nat.div2 n.
Proof.
  intros. unfold nup. eapply Nat.le_trans; [apply charge_of_le|]. rewrite firstn_length. lia.
Qed.

Lemma ndn_le : forall n s, Nat.even n = true -> length s = n -> ndn n s <= Nat.div2 n.
Proof.
  intros. unfold ndn. eapply Nat.le_trans; [apply charge_of_le|]. rewrite skipn_length.
  pose proof (half_split n H). lia.
Qed.

Lemma sz_of_updn : forall n s, length s = n ->
  sz_of n s = (Z.of_nat (nup n s) - Z.of_nat (ndn n s))%Z.
Proof. intros. unfold sz_of, nup, ndn. rewrite <- H at 3. now rewrite firstn_all. Qed.

Lemma occ_length : forall n k, 1 <= n -> k < 2 ^ n -> length (occ n k) = n.
Proof. intros. unfold occ. rewrite itb_bits by auto. apply bits_length. Qed.

Lemma szind_value : forall n s, Nat.even n = true -> length s = n ->
  sz_to_ind (sz_of n s) (charge_of s) n =
  Z.of_nat (if charge_of s <=? Nat.div2 n then nup n s else Nat.div2 n - ndn n s).
Proof.
  intros n s He Hs. rewrite sz_of_updn by auto.
  pose proof (nup_ndn n s). pose proof (nup_le n s). pose proof (ndn_le n s He Hs).
  pose proof (half_split n He). unfold sz_to_ind, szmax.
  destruct (Nat.leb_spec (charge_of s) (Nat.div2 n)).
  - rewrite Z.min_l by lia.
    replace (Z.of_nat (charge_of s) + (Z.of_nat (nup n s) - Z.of_nat (ndn n s)))%Z
      with (Z.of_nat (nup n s) * 2)%Z by lia. apply Z.quot_mul; lia.
  - rewrite Z.min_r by lia.
    replace (Z.of_nat n - Z.of_nat (charge_of s) + (Z.of_nat (nup n s) - Z.of_nat (ndn n s)))%Z
      with (Z.of_nat (Nat.div2 n - ndn n s) * 2)%Z by lia. apply Z.quot_mul; lia.
Qed.

Lemma szind_range : forall n s, Nat.even n = true -> length s = n ->
  (0 <= sz_to_ind (sz_of n s) (charge_of s) n)%Z /\
  Z.to_nat (sz_to_ind (sz_of n s) (charge_of s) n) < length (szrange (charge_of s) n).
Proof.
  intros n s He Hs. rewrite szind_value by auto.
  pose proof (nup_ndn n s). pose proof (nup_le n s). pose proof (ndn_le n s He Hs).
  pose proof (half_split n He). pose proof (charge_of_le s).
  rewrite szrange_length by lia. unfold szmax.
  destruct (Nat.leb_spec (charge_of s) (Nat.div2 n)); split; lia.
Qed.

(** position k of the sz list of charge c holds sz = szrange[k] *)
Lemma szind_iff : forall n s k, Nat.even n = true -> length s = n ->
  k < length (szrange (charge_of s) n) ->
  (Z.to_nat (sz_to_ind (sz_of n s) (charge_of s) n) = k <->
   sz_of n s = nth k (szrange (charge_of s) n) 0%Z).
Proof.
  intros n s k He Hs Hk.
  pose proof (nup_ndn n s). pose proof (nup_le n s). pose proof (ndn_le n s He Hs).
  pose proof (half_split n He). pose proof (charge_of_le s).
  rewrite szind_value by auto. rewrite szrange_length in Hk by lia.
  unfold szrange, range2. rewrite nth_map_seq.
  - rewrite sz_of_updn by auto. unfold szmax in *.
    destruct (Nat.leb_spec (charge_of s) (Nat.div2 n)); split; intros; lia.
  - unfold szmax in *.
    set (m := Z.min (Z.of_nat (charge_of s)) (Z.of_nat n - Z.of_nat (charge_of s))) in *.
    replace (m + 1 - - m + 1)%Z with ((m + 1) * 2)%Z by lia. rewrite Z.div_mul by lia. auto.
Qed.

(** ** nested bucket loop *)
Definition bucket2 (k1 k2 : nat -> nat) (xs : list nat) (L : list (list (list nat))) :=
  fold_left (fun L x => upd_nth (k1 x) (upd_nth (k2 x) (fun l => l ++ [x])) L) xs L.

Lemma bucket2_length : forall k1 k2 xs L, length (bucket2 k1 k2 xs L) = length L.
Proof.
  unfold bucket2. induction xs; simpl; intros; auto. rewrite IHxs. apply upd_nth_length.
Qed.

Lemma bucket2_row : forall k1 k2 xs L c, c < length L ->
  nth c (bucket2 k1 k2 xs L) [] = bucket k2 (filter (fun x => k1 x =? c) xs) (nth c L []).
Proof.
  unfold bucket2, bucket. induction xs as [|x xs IH]; simpl; intros L c Hc; auto.
  rewrite IH by (rewrite upd_nth_length; auto).
  destruct (Nat.eqb_spec (k1 x) c) as [E|E]; simpl.
  - subst. rewrite nth_upd_same by auto. reflexivity.
  - rewrite nth_upd_other by auto. reflexivity.
Qed.

Lemma bucket_repeat_map : forall A B (key : A -> nat) xs (l : list B),
  bucket key xs (map (fun _ => []) l)
  = map (fun k => filter (fun x => key x =? k) xs) (seq 0 (length l)).
Proof.
  intros. rewrite <- bucket_spec. f_equal. induction l; simpl; congruence.
Qed.

Lemma construct_szlst_length : forall n, length (construct_szlst n) = n + 1.
Proof.
  intros. unfold construct_szlst.
  change (length (bucket2 (occ_charge n) (occ_szind n) (seq 0 (2 ^ n)) (empty_szlst n)) = n + 1).
  rewrite bucket2_length. unfold empty_szlst. now rewrite map_length, seq_length.
Qed.

Lemma construct_szlst_row : forall n c, c <= n ->
  nth c (construct_szlst n) [] =
  map (fun k => filter (fun x => occ_szind n x =? k)
                       (filter (fun x => occ_charge n x =? c) (seq 0 (2 ^ n))))
      (seq 0 (length (szrange c n))).
Proof.
  intros n c Hc. unfold construct_szlst.
  change (nth c (bucket2 (occ_charge n) (occ_szind n) (seq 0 (2 ^ n)) (empty_szlst n)) [] =
  map (fun k => filter (fun x => occ_szind n x =? k)
                       (filter (fun x => occ_charge n x =? c) (seq 0 (2 ^ n))))
      (seq 0 (length (szrange c n)))).
  rewrite bucket2_row.
  - unfold empty_szlst. rewrite nth_map_seq by lia. apply bucket_repeat_map.
  - unfold empty_szlst. rewrite map_length, seq_length. lia.
Qed.

(** ** even nsingle may be 0: then [integer_to_binarylist 0 0 = [0]] has one digit *)
Lemma occ_szind_range : forall n k, Nat.even n = true -> k < 2 ^ n ->
  occ_szind n k < length (szrange (occ_charge n k) n).
Proof.
  intros n k He Hk. destruct n.
  - simpl in Hk. assert (k = 0) by lia. subst. vm_compute. lia.
  - apply szind_range; auto. apply occ_length; auto; lia.
Qed.

Lemma szrow_perm : forall n c, Nat.even n = true -> c <= n ->
  Permutation (flatten (nth c (construct_szlst n) []))
              (filter (fun x => occ_charge n x =? c) (seq 0 (2 ^ n))).
Proof.
  intros n c He Hc. rewrite construct_szlst_row by auto.
  apply concat_buckets_perm. intros x Hx. apply filter_In in Hx. destruct Hx as [Hx E].
  apply Nat.eqb_eq in E. apply in_seq in Hx. subst c. apply occ_szind_range; auto; lia.
Qed.

(** general: concatenating rowwise permutations *)
Lemma concat_map_perm : forall A (F G : nat -> list A) l,
  (forall c, In c l -> Permutation (F c) (G c)) ->
  Permutation (concat (map F l)) (concat (map G l)).
Proof.
  induction l; simpl; intros; auto. apply Permutation_app; auto.
Qed.

Lemma list_as_map_nth : forall A (d : A) (L : list A),
  L = map (fun c => nth c L d) (seq 0 (length L)).
Proof.
  intros. apply list_eq_nth with (d := d).
  - now rewrite map_length, seq_length.
  - intros. now rewrite nth_map_seq.
Qed.

Lemma concat_concat : forall A (L : list (list (list A))),
  concat (concat L) = concat (map (@concat A) L).
Proof. induction L; simpl; auto. rewrite concat_app. congruence. Qed.

Lemma construct_szlst_perm : forall n, Nat.even n = true ->
  Permutation (flatten (flatten (construct_szlst n))) (flatten (construct_chargelst n)).
Proof.
  intros n He. unfold flatten. rewrite concat_concat.
  rewrite (list_as_map_nth _ [] (construct_szlst n)), construct_szlst_length, map_map.
  rewrite construct_chargelst_spec. apply concat_map_perm.
  intros c Hc. apply in_seq in Hc. apply szrow_perm; auto; lia.
Qed.

(** ** inverse map *)
Lemma set_inverse_length : forall lst j, length (set_inverse lst j) = length j.
Proof.
  intros. unfold set_inverse.
  assert (G : forall xs j, length (fold_left (fun j j1 => set_nth (nth j1 lst 0) (Some j1) j) xs j)
                           = length j).
  { induction xs; simpl; intros; auto. rewrite IHxs. apply set_nth_length. }
  apply G.
Qed.

Lemma set_inverse_fold : forall lst xs j x,
  (forall k, In k xs -> nth k lst 0 <> x) ->
  nth_error (fold_left (fun j j1 => set_nth (nth j1 lst 0) (Some j1) j) xs j) x = nth_error j x.
Proof.
  induction xs; simpl; intros; auto. rewrite IHxs by auto.
  apply nth_error_set_other. auto.
Qed.

Lemma set_inverse_other : forall lst j x, ~ In x lst ->
  nth_error (set_inverse lst j) x = nth_error j x.
Proof.
  intros. apply set_inverse_fold. intros k Hk E. apply H. subst. apply nth_In.
  apply in_seq in Hk. lia.
Qed.

Lemma set_inverse_at : forall lst j k, NoDup lst -> (forall x, In x lst -> x < length j) ->
  k < length lst -> nth_error (set_inverse lst j) (nth k lst 0) = Some (Some k).
Proof.
  intros lst j k HN HR Hk. unfold set_inverse.
  replace (length lst) with (k + (1 + (length lst - S k))) by lia.
  rewrite seq_app, fold_left_app. rewrite seq_app, fold_left_app. simpl.
  rewrite set_inverse_fold.
  - apply nth_error_set_same.
    assert (G : forall xs j, length (fold_left (fun j j1 => set_nth (nth j1 lst 0) (Some j1) j) xs j)
                             = length j).
    { induction xs; simpl; intros; auto. rewrite IHxs. apply set_nth_length. }
    rewrite G. apply HR. apply nth_In; auto.
  - intros m Hm E. apply in_seq in Hm.
    rewrite (NoDup_nth _ 0) in HN. assert (m = k) by (apply HN; auto; lia). lia.
Qed.

(** ** Well-formed indexing relative to a set of live Lin indices *)
Record si_ok (si : SI) (live : nat -> bool) : Prop := {
  ok_i_nodup : NoDup (si_i si);
  ok_i_in : forall x, In x (si_i si) <-> (x < 2 ^ si_nsingle si /\ live x = true);
  ok_nmany : si_nmany si = length (si_i si);
  ok_j_len : length (si_j si) = 2 ^ si_nsingle si;
  ok_j_at : forall k, k < length (si_i si) ->
      nth_error (si_j si) (nth k (si_i si) 0) = Some (Some k);
  ok_j_dead : forall x, x < 2 ^ si_nsingle si -> live x = false ->
      nth_error (si_j si) x = Some None;
  ok_cl_len : length (si_chargelst si) = si_nsingle si + 1;
  ok_cl_in : forall c k, c <= si_nsingle si ->
      (In k (nth c (si_chargelst si) []) <->
       k < length (si_i si) /\ occ_charge (si_nsingle si) (nth k (si_i si) 0) = c);
  ok_cl_nodup : forall c, NoDup (nth c (si_chargelst si) [])
}.

(** Membership in an enumerated block, for blocks that classify by a key. *)
Lemma enum_block_in : forall (L : list (list nat)) (key : nat -> nat) c k,
  (forall d x, d < length L -> In x (nth d L []) -> key x = d) -> c < length L ->
  (In k (nth c (enum_from 0 L) []) <->
   k < total L /\ key (nth k (concat L) 0) = c).
Proof.
  intros L key c k HK Hc.
  assert (G : forall (L : list (list nat)) s c k base,
    (forall d x, d < length L -> In x (nth d L []) -> key x = base + d) -> c < length L ->
    (In k (nth c (enum_from s L) []) <->
     s <= k /\ k < s + total L /\ key (nth (k - s) (concat L) 0) = base + c)).
  { clear. induction L as [|l L IH]; intros s c k base HK Hc; [simpl in Hc; lia|].
    destruct c.
    - simpl. rewrite in_seq. split.
      + intros [H1 H2]. repeat split; try lia.
        rewrite app_nth1 by lia. rewrite (HK 0); [lia|simpl; lia|]. simpl. apply nth_In. lia.
      + intros (H1 & H2 & H3). split; auto.
        destruct (Nat.lt_ge_cases k (s + length l)); auto. exfalso.
        rewrite app_nth2 in H3 by lia.
        assert (Hin : In (nth (k - s - length l) (concat L) 0) (concat L)).
        { apply nth_In. rewrite total_concat. lia. }
        apply in_concat in Hin. destruct Hin as (b & Hb & Hx).
        apply In_nth with (d := []) in Hb. destruct Hb as (d & Hd & E). subst b.
        rewrite (HK (S d)) in H3; simpl; auto; lia.
    - simpl. rewrite (IH (s + length l) c k (S base)).
      + split.
        * intros (H1 & H2 & H3). repeat split; try lia.
          rewrite app_nth2 by lia. replace (k - s - length l) with (k - (s + length l)) by lia. lia.
        * intros (H1 & H2 & H3).
          destruct (Nat.lt_ge_cases k (s + length l)) as [Hlt|Hge].
          -- exfalso. rewrite app_nth1 in H3 by lia. rewrite (HK 0) in H3; [lia|simpl; lia|].
             simpl. apply nth_In. lia.
          -- repeat split; try lia. rewrite app_nth2 in H3 by lia.
             replace (k - (s + length l)) with (k - s - length l) by lia. lia.
      + intros d x Hd Hx. rewrite (HK (S d)); simpl; auto; lia.
      + simpl in Hc. lia. }
  rewrite (G L 0 c k 0) by auto. rewrite Nat.sub_0_r. simpl. split; intros H; intuition lia.
Qed.

Lemma enum_block_nodup : forall A (L : list (list A)) s c, NoDup (nth c (enum_from s L) []).
Proof.
  intros. destruct (Nat.lt_ge_cases c (length L)).
  - rewrite enum_from_nth by auto. apply seq_NoDup.
  - rewrite nth_overflow; [constructor|]. now rewrite enum_from_length.
Qed.

Lemma perm_seq_nodup : forall l m, Permutation l (seq 0 m) -> NoDup l.
Proof. intros. eapply Permutation_NoDup; [symmetry; eauto|apply seq_NoDup]. Qed.

(** The three ways of building the order, all from a list of blocks by charge. *)
Lemma live_i_ok : forall (i : list nat) m live, NoDup i ->
  (forall x, In x i <-> x < m /\ live x = true) -> forall j, length j = m ->
  (forall x, x < m -> live x = false -> nth_error j x = Some None) ->
  length (set_inverse i j) = m /\
  (forall k, k < length i -> nth_error (set_inverse i j) (nth k i 0) = Some (Some k)) /\
  (forall x, x < m -> live x = false -> nth_error (set_inverse i j) x = Some None).
Proof.
  intros i m live HN HI j Hj Hd. repeat split.
  - now rewrite set_inverse_length.
  - intros. apply set_inverse_at; auto. intros x Hx. apply HI in Hx. lia.
  - intros x Hx Hl. rewrite set_inverse_other; auto.
    intros Hin. apply HI in Hin. destruct Hin as [_ E]. congruence.
Qed.

Definition all_live (_ : nat) : bool := true.

Lemma make_inverse_ok : forall i n, Permutation i (seq 0 (2 ^ n)) ->
  NoDup i /\ (forall x, In x i <-> x < 2 ^ n /\ all_live x = true) /\ length i = 2 ^ n /\
  length (make_inverse_map i) = 2 ^ n /\
  (forall k, k < length i -> nth_error (make_inverse_map i) (nth k i 0) = Some (Some k)).
Proof.
  intros i n HP.
  assert (HN : NoDup i) by (eapply perm_seq_nodup; eauto).
  assert (HI : forall x, In x i <-> x < 2 ^ n /\ all_live x = true).
  { intros x. split.
    - intros H. apply (Permutation_in _ HP) in H. apply in_seq in H. split; [lia|auto].
    - intros [H _]. eapply Permutation_in; [symmetry; eauto|]. apply in_seq. lia. }
  assert (HL : length i = 2 ^ n).
  { rewrite (Permutation_length HP). apply seq_length. }
  split; [auto|]. split; [exact HI|]. split; [auto|]. split.
  - unfold make_inverse_map. rewrite set_inverse_length, repeat_length. auto.
  - intros. unfold make_inverse_map. apply set_inverse_at; auto.
    intros x Hx. rewrite repeat_length. apply HI in Hx. lia.
Qed.

Lemma chargelst_blocks_key : forall n (live : nat -> bool) d x,
  d < n + 1 ->
  In x (nth d (map (fun c => filter (fun k => (live k && (occ_charge n k =? c))%bool) (seq 0 (2 ^ n)))
            (seq 0 (n + 1))) []) -> occ_charge n x = d.
Proof.
  intros n live d x Hd Hx. rewrite nth_map_seq in Hx by auto.
  apply filter_In in Hx. destruct Hx as [_ E]. apply andb_true_iff in E.
  now apply Nat.eqb_eq.
Qed.

(** sizes of rows agree, so enumerations by charge agree for charge and sz blocks *)
Lemma flatten_rows_perm_total : forall (L : list (list (list nat))) (C : list (list nat)),
  length L = length C ->
  (forall c, c < length C -> Permutation (concat (nth c L [])) (nth c C [])) ->
  enum_from 0 (map (@concat nat) L) = enum_from 0 C /\
  Permutation (concat (concat L)) (concat C).
Proof.
  intros L C HL HP.
  assert (HP' : forall c, c < length C ->
             Permutation (nth c (map (@concat nat) L) []) (nth c C [])).
  { intros c Hc. rewrite (nth_indep _ [] (concat [])) by (rewrite map_length; lia).
    rewrite map_nth. auto. }
  split.
  - apply enum_from_ext. apply list_eq_nth with (d := 0).
    + rewrite !map_length. auto.
    + intros k Hk. rewrite !map_length in Hk.
      change 0 with (length (@nil nat)).
      rewrite !map_nth. apply Permutation_length, HP'. lia.
  - rewrite concat_concat. clear HP.
    assert (E : length (map (@concat nat) L) = length C) by (rewrite map_length; auto).
    clear HL. revert E HP'. generalize (map (@concat nat) L). clear L.
    intros L. revert C.
    induction L as [|l L IH]; destruct C as [|c C]; simpl; intros HL HP; auto; try discriminate.
    apply Permutation_app.
    + apply (HP 0). lia.
    + apply IH; [lia|]. intros k Hk. apply (HP (S k)). lia.
Qed.

Lemma concat_map_concat : forall A (L : list (list (list A))), concat (concat L) = concat (map (@concat A) L).
Proof. exact concat_concat. Qed.

(** si_ok for an order made of blocks-by-charge [C] (chargelst = enum C, i = concat of rows each a
    permutation of the corresponding block). *)
Lemma blocks_ok : forall n live (C R : list (list nat)) j nm clin szlin szl ssql rem nm_ ixs,
  length C = n + 1 -> length R = n + 1 ->
  (forall c, c <= n -> Permutation (nth c R []) (nth c C [])) ->
  (forall c x, c <= n -> In x (nth c C []) -> occ_charge n x = c) ->
  (forall x, In x (concat C) <-> x < 2 ^ n /\ live x = true) ->
  NoDup (concat C) ->
  length j = 2 ^ n ->
  (forall x, x < 2 ^ n -> live x = false -> nth_error j x = Some None) ->
  nm = length (concat R) ->
  si_ok (mkSI n ixs (n + 1) nm clin (enum_chargelst C) szlin szl ssql (concat R)
              (set_inverse (concat R) j) rem nm_) live.
Proof.
  intros n live C R j nm clin szlin szl ssql rem nm_ ixs HC HR HP HK HI HN Hj Hd Hnm.
  assert (HE : enum_from 0 R = enum_from 0 C).
  { apply enum_from_ext. apply list_eq_nth with (d := 0).
    - rewrite !map_length. lia.
    - intros k Hk. rewrite map_length in Hk. change 0 with (length (@nil nat)).
      rewrite !map_nth. apply Permutation_length, HP. lia. }
  assert (HPC : Permutation (concat R) (concat C)).
  { clear - HC HR HP. assert (E : length R = length C) by lia.
    assert (HP' : forall c, c < length C -> Permutation (nth c R []) (nth c C [])).
    { intros; apply HP; lia. }
    clear HC HR HP. revert C E HP'.
    induction R as [|l L IH]; destruct C as [|c C]; simpl; intros HL HP; auto; try discriminate.
    apply Permutation_app.
    + apply (HP 0). lia.
    + apply IH; [lia|]. intros k Hk. apply (HP (S k)). lia. }
  assert (HN' : NoDup (concat R)) by (eapply Permutation_NoDup; [symmetry; eauto|auto]).
  assert (HI' : forall x, In x (concat R) <-> x < 2 ^ n /\ live x = true).
  { intros x. rewrite <- HI. split; apply Permutation_in; auto. symmetry; auto. }
  destruct (live_i_ok (concat R) (2 ^ n) live HN' HI' j Hj Hd) as (A1 & A2 & A3).
  constructor; simpl; auto.
  - unfold enum_chargelst. now rewrite enum_from_length.
  - intros c k Hc. unfold enum_chargelst. rewrite <- HE.
    rewrite (enum_block_in R (occ_charge n) c k).
    + now rewrite total_concat.
    + intros d x Hd' Hx. apply HK; [lia|]. eapply Permutation_in; [apply HP; lia|auto].
    + lia.
  - intros c. apply enum_block_nodup.
Qed.

Lemma construct_chargelst_key : forall n c x, c <= n ->
  In x (nth c (construct_chargelst n) []) -> occ_charge n x = c.
Proof.
  intros n c x Hc H. rewrite construct_chargelst_spec in H. rewrite nth_map_seq in H by lia.
  apply filter_In in H. now apply Nat.eqb_eq.
Qed.

Lemma construct_chargelst_length : forall n, length (construct_chargelst n) = n + 1.
Proof. intros. rewrite construct_chargelst_spec, map_length, seq_length. auto. Qed.

Lemma construct_chargelst_in : forall n x,
  In x (concat (construct_chargelst n)) <-> x < 2 ^ n /\ all_live x = true.
Proof.
  intros. split.
  - intros H. apply (Permutation_in _ (construct_chargelst_perm n)) in H. apply in_seq in H.
    split; [lia|reflexivity].
  - intros [H _]. eapply Permutation_in; [symmetry; apply construct_chargelst_perm|].
    apply in_seq; lia.
Qed.

Lemma construct_chargelst_nodup : forall n, NoDup (concat (construct_chargelst n)).
Proof. intros. eapply perm_seq_nodup. apply construct_chargelst_perm. Qed.

Definition sz_rows (n : nat) := map (@concat nat) (construct_szlst n).

Lemma nth_sz_rows : forall n c, nth c (sz_rows n) [] = concat (nth c (construct_szlst n) []).
Proof. intros. unfold sz_rows. change (@nil nat) with (@concat nat []). now rewrite map_nth. Qed.

Lemma sz_rows_perm : forall n c, Nat.even n = true -> c <= n ->
  Permutation (nth c (sz_rows n) []) (nth c (construct_chargelst n) []).
Proof.
  intros. rewrite nth_sz_rows, construct_chargelst_spec, nth_map_seq by lia.
  apply szrow_perm; auto.
Qed.

(** Every freshly constructed indexing is well formed with all Fock states live. *)
Theorem si_init_ok : forall n ixname, si_ok (si_init n ixname) all_live.
Proof.
  intros n name. unfold si_init.
  assert (HD : forall (j : list (option nat)) x, x < 2 ^ n -> all_live x = false ->
                 nth_error j x = Some None) by (unfold all_live; discriminate).
  destruct (ix_of name n) eqn:EI.
  - (* Lin *)
    destruct (make_inverse_ok (seq 0 (2 ^ n)) n (Permutation_refl _)) as (A & B & C & D & E).
    constructor; cbn [si_i si_j si_nsingle si_nmany si_chargelst].
    + exact A.
    + exact B.
    + now rewrite seq_length.
    + exact D.
    + exact E.
    + unfold all_live; discriminate.
    + apply construct_chargelst_length.
    + intros c k Hc. rewrite construct_chargelst_spec, nth_map_seq by lia.
      rewrite filter_In, in_seq, seq_length, Nat.eqb_eq. split.
      * intros [H1 H2]. split; [lia|]. rewrite seq_nth by lia. auto.
      * intros [H1 H2]. rewrite seq_nth in H2 by lia. simpl in H2. split; [lia|auto].
    + intros c. destruct (Nat.lt_ge_cases c (n + 1)).
      * rewrite construct_chargelst_spec, nth_map_seq by lia. apply filter_NoDup, seq_NoDup.
      * rewrite nth_overflow; [constructor|]. rewrite construct_chargelst_length. auto.
  - (* charge *)
    destruct (make_inverse_ok _ n (construct_chargelst_perm n)) as (A & B & C & D & E).
    unfold make_inverse_map. unfold flatten.
    apply blocks_ok with (C := construct_chargelst n); auto using construct_chargelst_length,
      construct_chargelst_nodup, construct_chargelst_in.
    + intros; eapply construct_chargelst_key; eauto.
    + now rewrite repeat_length.
  - (* sz *)
    assert (He : Nat.even n = true).
    { unfold ix_of in EI. destruct (String.eqb name "charge"); [discriminate|].
      destruct (Nat.even n); auto. rewrite andb_false_r in EI. discriminate. }
    assert (HP : Permutation (flatten (flatten (construct_szlst n))) (seq 0 (2 ^ n))).
    { rewrite construct_szlst_perm by auto. apply construct_chargelst_perm. }
    destruct (make_inverse_ok _ n HP) as (A & B & C & D & E).
    unfold make_inverse_map, flatten in *. rewrite concat_concat in *.
    apply blocks_ok with (C := construct_chargelst n); auto using construct_chargelst_length,
      construct_chargelst_nodup, construct_chargelst_in.
    + rewrite map_length. apply construct_szlst_length.
    + intros. apply sz_rows_perm; auto.
    + intros; eapply construct_chargelst_key; eauto.
    + now rewrite repeat_length.
  - (* ssq *)
    assert (He : Nat.even n = true).
    { unfold ix_of in EI. destruct (String.eqb name "charge"); [discriminate|].
      destruct (Nat.even n); auto. rewrite andb_false_r in EI. discriminate. }
    assert (HP : Permutation (flatten (flatten (construct_szlst n))) (seq 0 (2 ^ n))).
    { rewrite construct_szlst_perm by auto. apply construct_chargelst_perm. }
    destruct (make_inverse_ok _ n HP) as (A & B & C & D & E).
    unfold make_inverse_map, flatten in *. rewrite concat_concat in *.
    apply blocks_ok with (C := construct_chargelst n); auto using construct_chargelst_length,
      construct_chargelst_nodup, construct_chargelst_in.
    + rewrite map_length. apply construct_szlst_length.
    + intros. apply sz_rows_perm; auto.
    + intros; eapply construct_chargelst_key; eauto.
    + now rewrite repeat_length.
Qed.

(** ** Round trips from well-formedness *)
Lemma ok_get_state : forall si live k, si_ok si live -> 1 <= si_nsingle si -> k < si_nmany si ->
  exists s, get_state si k = Some s /\ length s = si_nsingle si /\ get_ind si s = Ind k.
Proof.
  intros si live k H H1 Hk. rewrite (ok_nmany _ _ H) in Hk.
  assert (Hin : nth k (si_i si) 0 < 2 ^ si_nsingle si).
  { apply (ok_i_in _ _ H). apply nth_In; auto. }
  exists (occ (si_nsingle si) (nth k (si_i si) 0)). repeat split.
  - unfold get_state. rewrite nth_error_of_nth with (d := 0) by auto. reflexivity.
  - apply occ_length; auto.
  - unfold get_ind, occ. rewrite b2i_itb by auto.
    rewrite (ok_j_at _ _ H) by auto. reflexivity.
Qed.

Lemma ok_get_ind_live : forall si live s, si_ok si live -> 1 <= si_nsingle si ->
  length s = si_nsingle si -> live (binarylist_to_integer s) = true ->
  exists k, get_ind si s = Ind k /\ k < si_nmany si /\ get_state si k = Some s.
Proof.
  intros si live s H H1 Hs Hl.
  assert (Hb : binarylist_to_integer s < 2 ^ si_nsingle si) by (rewrite <- Hs; apply b2i_bound).
  assert (Hin : In (binarylist_to_integer s) (si_i si)) by (apply (ok_i_in _ _ H); auto).
  apply In_nth with (d := 0) in Hin. destruct Hin as (k & Hk & E).
  exists k. repeat split.
  - unfold get_ind. rewrite <- E. rewrite (ok_j_at _ _ H) by auto. reflexivity.
  - rewrite (ok_nmany _ _ H). auto.
  - unfold get_state. rewrite nth_error_of_nth with (d := 0) by auto. rewrite E. simpl.
    f_equal. rewrite <- Hs. apply itb_b2i. destruct s; simpl in *; [lia|congruence].
Qed.

Lemma ok_get_ind_dead : forall si live s, si_ok si live ->
  length s = si_nsingle si -> live (binarylist_to_integer s) = false -> get_ind si s = IndNone.
Proof.
  intros si live s H Hs Hl. unfold get_ind.
  rewrite (ok_j_dead _ _ H); auto. rewrite <- Hs. apply b2i_bound.
Qed.

Lemma ok_charge_block : forall si live c k, si_ok si live -> c <= si_nsingle si ->
  (In k (nth c (si_chargelst si) []) <->
   exists s, get_state si k = Some s /\ charge_of s = c).
Proof.
  intros si live c k H Hc. rewrite (ok_cl_in _ _ H) by auto. split.
  - intros [H1 H2]. exists (occ (si_nsingle si) (nth k (si_i si) 0)). split; auto.
    unfold get_state. rewrite nth_error_of_nth with (d := 0) by auto. reflexivity.
  - intros (s & H1 & H2). unfold get_state in H1.
    destruct (nth_error (si_i si) k) eqn:E; [|discriminate]. simpl in H1. injection H1 as H1.
    pose proof (nth_of_nth_error (si_i si) k 0 E) as E'.
    split.
    + apply nth_error_Some. congruence.
    + rewrite E'. unfold occ_charge, occ. congruence.
Qed.
