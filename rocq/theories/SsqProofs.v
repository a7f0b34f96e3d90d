(** Total-spin blocks (construct_ssqlst): sizes telescope and the cells enumerate the sz blocks. *)
From Coq Require Import String List Arith Lia ZArith Bool Permutation.
From Verif Require Import Base Bits Indexing IndexingProofs RemoveProofs Binom.
Import ListNotations.
Open Scope nat_scope.
Local Notation length := List.length.

(** ** Sizes of the sz blocks are products of binomials *)
Definition szlen (n c k : nat) : nat := length (nth k (nth c (construct_szlst n) []) []).

Lemma szlen_count : forall n c k, Nat.even n = true -> 1 <= n -> c <= n ->
  k < length (szrange c n) ->
  szlen n c k = count (fun s => ((charge_of s =? c) &&
     ((if charge_of s <=? Nat.div2 n then nup n s else Nat.div2 n - ndn n s) =? k))%bool) (allbits n).
Proof.
  intros n c k He Hn Hc Hk. unfold szlen. rewrite construct_szlst_row by auto.
  rewrite nth_map_seq by auto. rewrite filter_filter.
  rewrite <- (count_perm _ _ _ _ (bits_allbits n)), count_map. unfold count.
  f_equal. apply filter_ext_in. intros x Hx. apply in_seq in Hx.
  assert (Hb : occ n x = bits n x) by (unfold occ; apply itb_bits; auto; lia).
  unfold occ_szind, occ_sz, occ_charge. rewrite Hb.
  rewrite szind_value by (auto using bits_length). rewrite Nat2Z.id. apply andb_comm.
Qed.

Lemma szlen_val : forall n c k, Nat.even n = true -> 1 <= n -> c <= n ->
  k < length (szrange c n) ->
  szlen n c k =
  (if c <=? Nat.div2 n then binom (Nat.div2 n) k * binom (Nat.div2 n) (c - k)
   else binom (Nat.div2 n) (c - Nat.div2 n + k) * binom (Nat.div2 n) (Nat.div2 n - k)).
Proof.
  intros n c k He Hn Hc Hk. rewrite szlen_count by auto.
  pose proof (half_split n He) as Hh. set (h := Nat.div2 n) in *.
  rewrite szrange_length in Hk by auto. unfold szmax in Hk.
  rewrite Hh. destruct (Nat.leb_spec c h).
  - rewrite <- (count_updn h h k (c - k)). apply count_ext_in. intros s Hs. apply allbits_in in Hs.
    rewrite <- Hh in Hs |- *.
    pose proof (nup_ndn n s) as Hud. unfold nup, ndn in *. fold h in Hud |- *.
    destruct (Nat.eqb_spec (charge_of s) c); simpl.
    + destruct (Nat.leb_spec (charge_of s) h); [|lia].
      destruct (Nat.eqb_spec (charge_of (firstn h s)) k); simpl; auto.
      symmetry. apply Nat.eqb_eq. lia.
    + destruct (Nat.eqb_spec (charge_of (firstn h s)) k); simpl; auto.
      symmetry. apply Nat.eqb_neq. lia.
  - rewrite <- (count_updn h h (c - h + k) (h - k)). apply count_ext_in. intros s Hs. apply allbits_in in Hs.
    rewrite <- Hh in Hs |- *.
    pose proof (nup_ndn n s) as Hud. pose proof (ndn_le n s He Hs) as Hdn. pose proof (nup_le n s) as Hun.
    unfold nup, ndn in *. fold h in Hud, Hdn, Hun |- *.
    destruct (Nat.eqb_spec (charge_of s) c); simpl.
    + destruct (Nat.leb_spec (charge_of s) h); [lia|].
      destruct (Nat.eqb_spec (charge_of (firstn h s)) (c - h + k)); simpl.
      * destruct (Nat.eqb_spec (charge_of (skipn h s)) (h - k)); apply Nat.eqb_eq || apply Nat.eqb_neq; lia.
      * apply Nat.eqb_neq. lia.
    + destruct (Nat.eqb_spec (charge_of (firstn h s)) (c - h + k)); simpl; auto.
      symmetry. apply Nat.eqb_neq. lia.
Qed.

Definition smax (n c : nat) : nat := Nat.min c (n - c).

Lemma smax_szmax : forall n c, c <= n -> szmax c n = Z.of_nat (smax n c).
Proof. intros. unfold szmax, smax. lia. Qed.

Lemma szrange_len : forall n c, c <= n -> length (szrange c n) = S (smax n c).
Proof. intros. rewrite szrange_length, smax_szmax by auto. lia. Qed.

Lemma szlen_sym : forall n c k, Nat.even n = true -> 1 <= n -> c <= n -> k <= smax n c ->
  szlen n c k = szlen n c (smax n c - k).
Proof.
  intros n c k He Hn Hc Hk. pose proof (half_split n He) as Hh.
  rewrite !szlen_val by (auto; rewrite szrange_len by auto; lia).
  unfold smax in *. set (h := Nat.div2 n) in *.
  destruct (Nat.leb_spec c h).
  - rewrite Nat.min_l in * by lia. rewrite Nat.mul_comm. f_equal; f_equal; lia.
  - rewrite Nat.min_r in * by lia. rewrite Nat.mul_comm. f_equal; f_equal; lia.
Qed.

Lemma szlen_mono : forall n c k, Nat.even n = true -> 1 <= n -> c <= n -> 2 * S k <= smax n c ->
  szlen n c k <= szlen n c (S k).
Proof.
  intros n c k He Hn Hc Hk. pose proof (half_split n He) as Hh.
  rewrite !szlen_val by (auto; rewrite szrange_len by auto; lia).
  unfold smax in *. set (h := Nat.div2 n) in *.
  destruct (Nat.leb_spec c h).
  - rewrite Nat.min_l in * by lia.
    replace (c - k) with (S (c - S k)) by lia. apply binom_unimodal; lia.
  - rewrite Nat.min_r in * by lia.
    replace (c - h + S k) with (S (c - h + k)) by lia.
    replace (h - k) with (S (h - S k)) by lia.
    apply binom_unimodal; lia.
Qed.

(** ** The multiplet counts *)
Lemma range2_length : forall lo hi, length (range2 lo hi) = Z.to_nat ((hi - lo + 1) / 2).
Proof. intros. unfold range2. now rewrite map_length, seq_length. Qed.

Lemma range2_nth : forall lo hi k, k < length (range2 lo hi) ->
  nth k (range2 lo hi) 0%Z = (lo + 2 * Z.of_nat k)%Z.
Proof. intros. rewrite range2_length in H. unfold range2. now rewrite nth_map_seq. Qed.

Lemma parity_smax : forall n c, Nat.even n = true -> c <= n ->
  (Z.of_nat c mod 2 = Z.of_nat (smax n c) mod 2)%Z.
Proof.
  intros n c He Hc. pose proof (half_split n He). unfold smax.
  destruct (Nat.le_ge_cases c (n - c)).
  - now rewrite Nat.min_l by auto.
  - rewrite Nat.min_r by auto.
    replace (Z.of_nat (n - c)) with (Z.of_nat c + (Z.of_nat (Nat.div2 n) - Z.of_nat c) * 2)%Z by lia.
    now rewrite Z.mod_add by lia.
Qed.

(** number of ssq values for the charge, minus one *)
Definition qmax (n c : nat) : nat := Nat.div2 (smax n c).

Lemma smax_qmax : forall n c, exists p, (p = 0 \/ p = 1) /\ smax n c = 2 * qmax n c + p.
Proof.
  intros. exists (b2n (Nat.odd (smax n c))). split.
  - destruct (Nat.odd _); auto.
  - apply div2_odd_eq.
Qed.

Lemma ssqr_facts : forall n c, Nat.even n = true -> c <= n ->
  length (ssqrange c (Z.of_nat c mod 2) n) = S (qmax n c) /\
  forall t, t <= qmax n c ->
    ssq_to_ind (nth t (ssqrange c (Z.of_nat c mod 2) n) 0%Z) 0 = Z.of_nat t.
Proof.
  intros n c He Hc. destruct (smax_qmax n c) as (p & Hp & E).
  assert (Hm : (Z.of_nat c mod 2 = Z.of_nat p)%Z).
  { rewrite (parity_smax n c He Hc), E.
    replace (Z.of_nat (2 * qmax n c + p)) with (Z.of_nat p + Z.of_nat (qmax n c) * 2)%Z by lia.
    rewrite Z.mod_add by lia. apply Z.mod_small. lia. }
  assert (HL : length (ssqrange c (Z.of_nat c mod 2) n) = S (qmax n c)).
  { unfold ssqrange. rewrite range2_length, smax_szmax, Hm, E by auto.
    rewrite Z.abs_eq by lia.
    replace (Z.of_nat (2 * qmax n c + p) + 1 - Z.of_nat p + 1)%Z
      with ((Z.of_nat (qmax n c) + 1) * 2)%Z by lia.
    rewrite Z.div_mul by lia. lia. }
  split; auto. intros t Ht.
  unfold ssqrange in *. rewrite range2_nth by lia. rewrite Hm. rewrite Z.abs_eq by lia.
  unfold ssq_to_ind. simpl Z.abs. rewrite Z.sub_0_r.
  rewrite Z.quot_div_nonneg by lia.
  destruct Hp as [-> | ->].
  - replace (Z.of_nat 0 + 2 * Z.of_nat t)%Z with (Z.of_nat t * 2)%Z by lia. apply Z.div_mul. lia.
  - replace (Z.of_nat 1 + 2 * Z.of_nat t)%Z with (1 + Z.of_nat t * 2)%Z by lia.
    rewrite Z.div_add by lia. reflexivity.
Qed.

(** setting distinct positions one after the other *)
Lemma fold_set_nth : forall (pos : nat -> nat) (val : nat -> Z) m row t,
  (forall a b, a < m -> b < m -> pos a = pos b -> a = b) ->
  (forall a, a < m -> pos a < length row) ->
  t < m ->
  nth (pos t) (fold_left (fun row j => set_nth (pos j) (val j) row) (seq 0 m) row) 0%Z = val t.
Proof.
  intros pos val m row t Hinj Hr Ht. revert row Hr.
  assert (GL : forall xs row, length (fold_left (fun row j => set_nth (pos j) (val j) row) xs row) = length row).
  { induction xs; simpl; intros; auto. rewrite IHxs. apply set_nth_length. }
  assert (GO : forall xs row p, (forall j, In j xs -> pos j <> p) ->
     nth p (fold_left (fun row j => set_nth (pos j) (val j) row) xs row) 0%Z = nth p row 0%Z).
  { induction xs; simpl; intros; auto. rewrite IHxs by auto. apply nth_set_other. auto. }
  intros row Hr.
  replace m with (t + (1 + (m - S t))) by lia. rewrite seq_app, fold_left_app, seq_app, fold_left_app.
  simpl. rewrite GO.
  - apply nth_set_same. rewrite GL. auto.
  - intros j Hj E. apply in_seq in Hj. apply Hinj in E; lia.
Qed.

(** lengths of the rows of the enumerated szlst *)
Lemma enum_szlst_len : forall n c k, c <= n ->
  length (nth k (nth c (enum_szlst (construct_szlst n)) []) []) = szlen n c k.
Proof.
  intros n c k Hc. unfold enum_szlst. rewrite enum2_row by (rewrite construct_szlst_length; lia).
  unfold szlen. destruct (Nat.lt_ge_cases k (length (nth c (construct_szlst n) []))).
  - rewrite enum_from_nth by auto. apply seq_length.
  - rewrite !nth_overflow; auto. now rewrite enum_from_length.
Qed.

Definition diff (n c j : nat) : Z :=
  (Z.of_nat (szlen n c j) - (if (0 <? j)%nat then Z.of_nat (szlen n c (j - 1)%nat) else 0))%Z.

Lemma ssqcount_row_nth : forall n c t, Nat.even n = true -> c <= n -> t <= qmax n c ->
  nth t (ssqcount_row (nth c (enum_szlst (construct_szlst n)) []) c n) 0%Z = diff n c (qmax n c - t).
Proof.
  intros n c t He Hc Ht. unfold ssqcount_row.
  destruct (ssqr_facts n c He Hc) as [HL HI].
  set (ssqr := ssqrange c (Z.of_nat c mod 2) n) in *.
  rewrite HL.
  set (pos := fun j2 => Z.to_nat (ssq_to_ind (nth (S (qmax n c) - j2 - 1) ssqr 0%Z) 0)).
  assert (HP : forall j, j < S (qmax n c) -> pos j = qmax n c - j).
  { intros j Hj. unfold pos. rewrite HI by lia. rewrite Nat2Z.id. lia. }
  replace t with (pos (qmax n c - t)) at 1 by (rewrite HP; lia).
  rewrite (fold_set_nth pos (fun j2 =>
     (Z.of_nat (length (nth j2 (nth c (enum_szlst (construct_szlst n)) []) []))
          - (if (0 <? j2)%nat then Z.of_nat (length (nth (j2 - 1)%nat
               (nth c (enum_szlst (construct_szlst n)) []) [])) else 0))%Z)).
  - unfold diff. rewrite !enum_szlst_len by auto. reflexivity.
  - intros a b Ha Hb. rewrite !HP by lia. lia.
  - intros a Ha. rewrite HP by lia. rewrite map_length. rewrite HL. lia.
  - lia.
Qed.

Lemma diff_nonneg : forall n c j, Nat.even n = true -> 1 <= n -> c <= n -> j <= qmax n c ->
  (0 <= diff n c j)%Z.
Proof.
  intros n c j He Hn Hc Hj. unfold diff. destruct (Nat.ltb_spec 0 j); [|lia].
  destruct j; [lia|]. simpl Nat.sub. rewrite Nat.sub_0_r.
  destruct (smax_qmax n c) as (p & _ & E).
  pose proof (szlen_mono n c j He Hn Hc). lia.
Qed.

(** telescoping sum of the counts *)
Lemma diff_sum : forall n c k, Nat.even n = true -> 1 <= n -> c <= n -> k <= qmax n c ->
  sumn (map (fun j => Z.to_nat (diff n c j)) (seq 0 (S k))) = szlen n c k.
Proof.
  induction k; intros He Hn Hc Hk.
  - simpl. unfold diff. simpl. lia.
  - rewrite seq_S, map_app, sumn_app, IHk by (auto; lia). simpl.
    pose proof (diff_nonneg n c (S k) He Hn Hc Hk) as H0.
    unfold diff in *. simpl in *. rewrite Nat.sub_0_r in *. lia.
Qed.

(** the counts used for the cells of (charge c, sz index k) *)
Definition cell_counts (n c k : nat) : list nat :=
  map (fun t => Z.to_nat (diff n c (Nat.min k (smax n c - k) - t))) (seq 0 (S (Nat.min k (smax n c - k)))).

Lemma sumn_rev : forall l, sumn (rev l) = sumn l.
Proof. induction l; simpl; auto. rewrite sumn_app. simpl. lia. Qed.

Lemma map_rev_seq : forall (f : nat -> nat) m,
  map (fun t => f (m - t)) (seq 0 (S m)) = rev (map f (seq 0 (S m))).
Proof.
  intros. apply list_eq_nth with (d := 0).
  - now rewrite rev_length, !map_length.
  - intros k Hk. rewrite map_length, seq_length in Hk.
    rewrite rev_nth by (rewrite map_length, seq_length; auto).
    rewrite map_length, seq_length, !nth_map_seq by lia. reflexivity.
Qed.

Lemma cell_counts_sum : forall n c k, Nat.even n = true -> 1 <= n -> c <= n -> k <= smax n c ->
  sumn (cell_counts n c k) = szlen n c k.
Proof.
  intros n c k He Hn Hc Hk. unfold cell_counts.
  rewrite (map_rev_seq (fun j => Z.to_nat (diff n c j))), sumn_rev.
  destruct (smax_qmax n c) as (p & Hp & E).
  rewrite diff_sum by (auto; lia).
  destruct (Nat.le_ge_cases k (smax n c - k)).
  - now rewrite Nat.min_l by auto.
  - rewrite Nat.min_r by auto. symmetry. apply szlen_sym; auto.
Qed.

(** ** The filling loops *)
(** A counter-carrying fold that updates one position of the outer list. *)
Lemma fold_lens : forall A X (F : X -> nat -> A -> A) (G : X -> nat -> nat) c xs S0 ind,
  fold_left (fun (st : list A * nat) x => let '(Q, i) := st in (upd_nth c (F x i) Q, G x i)) xs (S0, ind)
  = (upd_nth c (fun r => fst (fold_left (fun (st : A * nat) x => let '(r, i) := st in (F x i r, G x i)) xs (r, ind))) S0,
     fold_left (fun i x => G x i) xs ind).
Proof.
  induction xs as [|x xs IH]; simpl; intros.
  - f_equal. clear. revert c. induction S0; destruct c; simpl; auto. f_equal. auto.
  - rewrite IH. f_equal. clear. revert c.
    induction S0 as [|a S0 IH]; destruct c; simpl; auto. f_equal. auto.
Qed.

Lemma fold_snd : forall A X (F : X -> nat -> A -> A) (G : X -> nat -> nat) xs r ind,
  snd (fold_left (fun (st : A * nat) x => let '(r, i) := st in (F x i r, G x i)) xs (r, ind))
  = fold_left (fun i x => G x i) xs ind.
Proof. induction xs; simpl; intros; auto. Qed.

(** Visiting positions 0,1,2,... in order. *)
Fixpoint go {A X} (F : X -> nat -> A -> A) (G : X -> nat -> nat) (xs : list X) (Q : list A) (ind : nat)
  : list A :=
  match xs, Q with
  | x :: xs', a :: Q' => F x ind a :: go F G xs' Q' (G x ind)
  | _, _ => Q
  end.

Lemma fold_visit : forall A X (F : X -> nat -> A -> A) (G : X -> nat -> nat) (pos : X -> nat) xs S0 ind pre,
  length xs = length S0 ->
  (forall k d, k < length xs -> pos (nth k xs d) = length pre + k) ->
  fold_left (fun (st : list A * nat) x => let '(Q, i) := st in (upd_nth (pos x) (F x i) Q, G x i)) xs
            (pre ++ S0, ind)
  = (pre ++ go F G xs S0 ind, fold_left (fun i x => G x i) xs ind).
Proof.
  induction xs as [|x xs IH]; intros S0 ind pre HL HP.
  - destruct S0; [reflexivity|discriminate].
  - destruct S0 as [|a S0]; [discriminate|]. simpl.
    pose proof (HP 0 x ltac:(simpl; lia)) as H0. simpl in H0. rewrite H0.
    assert (EU : upd_nth (length pre + 0) (F x ind) (pre ++ a :: S0) = (pre ++ [F x ind a]) ++ S0).
    { rewrite Nat.add_0_r, <- app_assoc. simpl. clear. induction pre; simpl; auto. f_equal. auto. }
    rewrite EU, IH.
    + rewrite <- app_assoc. reflexivity.
    + simpl in HL. lia.
    + intros k d Hk. rewrite app_length. simpl.
      pose proof (HP (S k) d ltac:(simpl; lia)) as H. simpl in H. rewrite H. lia.
Qed.

(** enumeration by counts *)
Fixpoint enum_counts (ind : nat) (cs : list nat) : list (list nat) :=
  match cs with [] => [] | c :: cs' => seq ind c :: enum_counts (ind + c) cs' end.

Lemma enum_counts_length : forall cs i, length (enum_counts i cs) = length cs.
Proof. induction cs; simpl; auto. Qed.

Lemma enum_counts_concat : forall cs i, concat (enum_counts i cs) = seq i (sumn cs).
Proof. induction cs; simpl; intros; auto. rewrite IHcs. now rewrite <- seq_app. Qed.

Lemma enum_counts_nth : forall cs i t, t < length cs ->
  length (nth t (enum_counts i cs) []) = nth t cs 0.
Proof.
  induction cs; simpl; intros i t H; [lia|]. destruct t; simpl.
  - apply seq_length.
  - apply IHcs. lia.
Qed.

(** one cell: appends [count] consecutive numbers *)
Lemma fill_cell_inner : forall m l ind,
  fold_left (fun (st : list nat * nat) (_ : nat) => let '(l, i) := st in (l ++ [i], S i)) (seq 0 m) (l, ind)
  = (l ++ seq ind m, ind + m).
Proof.
  intros m. assert (G : forall m s l ind,
    fold_left (fun (st : list nat * nat) (_ : nat) => let '(l, i) := st in (l ++ [i], S i)) (seq s m) (l, ind)
    = (l ++ seq ind m, ind + m)).
  { clear. induction m; simpl; intros.
    - rewrite app_nil_r. f_equal. lia.
    - rewrite IHm. rewrite <- app_assoc. simpl. f_equal. lia. }
  apply G.
Qed.

Lemma upd_nth_ext : forall A (f g : A -> A) l k, (forall x, f x = g x) -> upd_nth k f l = upd_nth k g l.
Proof. induction l; destruct k; simpl; intros; auto; f_equal; auto. Qed.

Lemma fold_counter : forall X (xs : list X) ind, fold_left (fun i (_ : X) => S i) xs ind = ind + length xs.
Proof. induction xs; simpl; intros; auto. rewrite IHxs. lia. Qed.

Lemma ssq_fill_cell_eq : forall charge szind ssqind count ssqlst ind,
  ssq_fill_cell charge szind ssqind count (ssqlst, ind)
  = (upd_nth charge (upd_nth szind (upd_nth ssqind (fun l => l ++ seq ind (Z.to_nat count)))) ssqlst,
     ind + Z.to_nat count).
Proof.
  intros. unfold ssq_fill_cell.
  rewrite (fold_lens _ _ (fun _ i => upd_nth szind (upd_nth ssqind (fun l => l ++ [i]))) (fun _ i => S i)).
  rewrite fold_counter, seq_length. f_equal. apply upd_nth_ext. intros row.
  rewrite (fold_lens _ _ (fun _ i => upd_nth ssqind (fun l => l ++ [i])) (fun _ i => S i)).
  simpl. apply upd_nth_ext. intros cell.
  rewrite (fold_lens _ _ (fun _ i => (fun l => l ++ [i])) (fun _ i => S i)).
  simpl. apply upd_nth_ext. intros l.
  rewrite fill_cell_inner. reflexivity.
Qed.

(** facts about ssqrange for the k-th sz *)
Lemma ssqrange_facts : forall n c k, c <= n -> k <= smax n c ->
  let sz := nth k (szrange c n) 0%Z in
  length (ssqrange c sz n) = S (Nat.min k (smax n c - k)) /\
  (forall t, t <= Nat.min k (smax n c - k) ->
     ssq_to_ind (nth t (ssqrange c sz n) 0%Z) sz = Z.of_nat t /\
     ssq_to_ind (nth t (ssqrange c sz n) 0%Z) 0 = Z.of_nat (qmax n c - Nat.min k (smax n c - k) + t)).
Proof.
  intros n c k Hc Hk sz.
  destruct (smax_qmax n c) as (p & Hp & E).
  assert (Hsz : (Z.abs sz = Z.of_nat (smax n c - 2 * Nat.min k (smax n c - k)))%Z).
  { unfold sz, szrange. rewrite range2_nth.
    - rewrite smax_szmax by auto. lia.
    - fold (szrange c n). rewrite szrange_len by auto. lia. }
  assert (HL : length (ssqrange c sz n) = S (Nat.min k (smax n c - k))).
  { unfold ssqrange. rewrite range2_length, Hsz, smax_szmax by auto.
    replace (Z.of_nat (smax n c) + 1 - Z.of_nat (smax n c - 2 * Nat.min k (smax n c - k)) + 1)%Z
      with ((Z.of_nat (Nat.min k (smax n c - k)) + 1) * 2)%Z by lia.
    rewrite Z.div_mul by lia. lia. }
  split; auto. intros t Ht.
  unfold ssqrange in HL |- *. rewrite range2_nth by lia. unfold ssq_to_ind. split.
  - replace (Z.abs sz + 2 * Z.of_nat t - Z.abs sz)%Z with (Z.of_nat t * 2)%Z by lia.
    apply Z.quot_mul. lia.
  - simpl Z.abs. rewrite Z.sub_0_r, Hsz. rewrite Z.quot_div_nonneg by lia.
    set (m := Nat.min k (smax n c - k)) in *.
    assert (m <= qmax n c) by lia.
    replace (Z.of_nat (smax n c - 2 * m) + 2 * Z.of_nat t)%Z
      with (Z.of_nat p + Z.of_nat (qmax n c - m + t) * 2)%Z by lia.
    rewrite Z.div_add by lia. rewrite Z.div_small by lia. lia.
Qed.

Lemma go_counts : forall X (cnt : X -> nat) xs ind,
  go (fun x i l => l ++ seq i (cnt x)) (fun x i => i + cnt x) xs (map (fun _ => []) xs) ind
  = enum_counts ind (map cnt xs).
Proof. induction xs; simpl; intros; auto. f_equal. auto. Qed.

Lemma go_length : forall A X (F : X -> nat -> A -> A) G xs Q ind, length (go F G xs Q ind) = length Q.
Proof. induction xs; destruct Q; simpl; intros; auto. Qed.

Lemma fold_add_counts : forall X (cnt : X -> nat) xs ind,
  fold_left (fun i x => i + cnt x) xs ind = ind + sumn (map cnt xs).
Proof. induction xs; simpl; intros; auto. rewrite IHxs. lia. Qed.

Lemma go_ext : forall A X (F F' : X -> nat -> A -> A) G G' xs Q ind,
  (forall x i a, In x xs -> F x i a = F' x i a) -> (forall x i, In x xs -> G x i = G' x i) ->
  go F G xs Q ind = go F' G' xs Q ind.
Proof.
  induction xs; destruct Q; simpl; intros; auto.
  rewrite H, H0 by auto. f_equal. apply IHxs; auto.
Qed.

Lemma nth_map_lt : forall A B (f : A -> B) l k d d', k < length l -> nth k (map f l) d = f (nth k l d').
Proof. induction l; destruct k; simpl; intros; auto; try lia. apply IHl. lia. Qed.

(** counts of the cells of (c, sz) as the code computes them *)
Definition code_counts (n c : nat) (sz : Z) : list nat :=
  map (fun ssq => Z.to_nat (nth (Z.to_nat (ssq_to_ind ssq 0))
        (nth c (ssqcount (enum_szlst (construct_szlst n)) n) []) 0%Z)) (ssqrange c sz n).

Lemma code_counts_eq : forall n c k, Nat.even n = true -> c <= n -> k <= smax n c ->
  code_counts n c (nth k (szrange c n) 0%Z) = cell_counts n c k.
Proof.
  intros n c k He Hc Hk. destruct (ssqrange_facts n c k Hc Hk) as [HL HI].
  set (sz := nth k (szrange c n) 0%Z) in *. unfold code_counts, cell_counts.
  apply list_eq_nth with (d := 0).
  - rewrite !map_length, HL, seq_length. auto.
  - intros t Ht. rewrite map_length, HL in Ht.
    rewrite nth_map_seq by auto.
    rewrite (@nth_map_lt _ _ _ _ _ 0 0%Z) by lia. destruct (HI t) as [_ HI2]; [lia|]. rewrite HI2, Nat2Z.id.
    unfold ssqcount. rewrite nth_map_seq by lia.
    destruct (smax_qmax n c) as (p & Hp & E).
    rewrite ssqcount_row_nth by (auto; lia). f_equal. f_equal. lia.
Qed.

(** the whole construction, as nested enumeration *)
Fixpoint enum_rows (ind : nat) (rows : list (list nat)) : list (list (list nat)) :=
  match rows with
  | [] => []
  | r :: rows' => enum_counts ind r :: enum_rows (ind + sumn r) rows'
  end.
Fixpoint enum_tabs (ind : nat) (tabs : list (list (list nat))) : list (list (list (list nat))) :=
  match tabs with
  | [] => []
  | t :: tabs' => enum_rows ind t :: enum_tabs (ind + sumn (map sumn t)) tabs'
  end.

Definition ssq_counts (n : nat) : list (list (list nat)) :=
  map (fun c => map (fun k => cell_counts n c k) (seq 0 (S (smax n c)))) (seq 0 (n + 1)).

Lemma fold_left_ext_in : forall A B (f g : A -> B -> A) l a,
  (forall a b, In b l -> f a b = g a b) -> fold_left f l a = fold_left g l a.
Proof. induction l; simpl; intros; auto. rewrite H by auto. apply IHl; auto. Qed.

Lemma szrange_pos : forall n c k d, c <= n -> k < length (szrange c n) ->
  Z.to_nat (sz_to_ind (nth k (szrange c n) d) c n) = k.
Proof.
  intros. rewrite (nth_indep _ d 0%Z) by auto. rewrite sz_to_ind_szrange by auto. apply Nat2Z.id.
Qed.

Lemma go_rows : forall n c, Nat.even n = true -> c <= n -> forall ks ind,
  (forall k, In k ks -> k <= smax n c) ->
  go (fun sz i (row : list (list nat)) =>
        enum_counts i (code_counts n c sz))
     (fun sz i => i + sumn (code_counts n c sz))
     (map (fun k => nth k (szrange c n) 0%Z) ks)
     (map (fun j => map (fun _ => []) (ssqrange c j n)) (map (fun k => nth k (szrange c n) 0%Z) ks)) ind
  = enum_rows ind (map (fun k => cell_counts n c k) ks).
Proof.
  intros n c He Hc. induction ks as [|k ks IH]; simpl; intros ind Hks; auto.
  rewrite !code_counts_eq by (auto; apply Hks; auto). f_equal. apply IH. auto.
Qed.

Lemma go_tabs : forall n, Nat.even n = true -> forall cs ind,
  (forall c, In c cs -> c <= n) ->
  go (fun c i (tab : list (list (list nat))) => enum_rows i (map (fun k => cell_counts n c k) (seq 0 (S (smax n c)))))
     (fun c i => i + sumn (map sumn (map (fun k => cell_counts n c k) (seq 0 (S (smax n c))))))
     cs
     (map (fun i => map (fun j => map (fun _ => []) (ssqrange i j n)) (szrange i n)) cs) ind
  = enum_tabs ind (map (fun c => map (fun k => cell_counts n c k) (seq 0 (S (smax n c)))) cs).
Proof.
  intros n He. induction cs as [|c cs IH]; intros ind Hcs; auto.
  cbn [map go enum_tabs]. f_equal. apply IH. intros; apply Hcs; simpl; auto.
Qed.

(** [fold_visit]/[fold_lens] specialised: a fold whose step acts as [upd_nth (pos x)]. *)
Lemma visit_all : forall A X (F : X -> nat -> A -> A) (G : X -> nat -> nat) (pos : X -> nat) xs S0 ind,
  length xs = length S0 -> (forall k d, k < length xs -> pos (nth k xs d) = k) ->
  fold_left (fun (st : list A * nat) x => let '(Q, i) := st in (upd_nth (pos x) (F x i) Q, G x i)) xs (S0, ind)
  = (go F G xs S0 ind, fold_left (fun i x => G x i) xs ind).
Proof. intros. apply (fold_visit _ _ F G pos xs S0 ind []); auto. Qed.

Lemma go_shape : forall A X (F F' : X -> nat -> A -> A) G xs (S0 : list A) (D : X -> A) ind,
  S0 = map D xs -> (forall x i, In x xs -> F x i (D x) = F' x i (D x)) ->
  go F G xs S0 ind = go F' G xs S0 ind.
Proof.
  intros A X F F' G xs S0 D ind -> HF. revert ind.
  induction xs as [|x xs IH]; simpl; intros; auto.
  rewrite HF by (simpl; auto). f_equal. apply IH. intros; apply HF; simpl; auto.
Qed.

Theorem construct_ssqlst_enum : forall n, Nat.even n = true ->
  construct_ssqlst (enum_szlst (construct_szlst n)) n = enum_tabs 0 (ssq_counts n).
Proof.
  intros n He. unfold construct_ssqlst.
  set (cnt := ssqcount (enum_szlst (construct_szlst n)) n).
  (* step for one charge: update row [charge] *)
  set (FS := fun (sz : Z) (c : nat) (i : nat) (row : list (list nat)) =>
         fst (fold_left (fun (st : list (list nat) * nat) ssq => let '(row, i) := st in
           (upd_nth (Z.to_nat (ssq_to_ind ssq sz))
              (fun l => l ++ seq i (Z.to_nat (nth (Z.to_nat (ssq_to_ind ssq 0)) (nth c cnt []) 0%Z))) row,
            i + Z.to_nat (nth (Z.to_nat (ssq_to_ind ssq 0)) (nth c cnt []) 0%Z)))
           (ssqrange c sz n) (row, i))).
  set (FC := fun (c : nat) (i : nat) (tab : list (list (list nat))) =>
         fst (fold_left (fun (st : list (list (list nat)) * nat) sz => let '(tab, i) := st in
           (upd_nth (Z.to_nat (sz_to_ind sz c n)) (FS sz c i) tab,
            i + sumn (code_counts n c sz)))
           (szrange c n) (tab, i))).
  assert (E3 : forall c sz tab i,
    fold_left (fun st ssq =>
       ssq_fill_cell c (Z.to_nat (sz_to_ind sz c n)) (Z.to_nat (ssq_to_ind ssq sz))
          (nth (Z.to_nat (ssq_to_ind ssq 0)) (nth c cnt []) 0%Z) st)
      (ssqrange c sz n) (tab, i)
    = (upd_nth c (upd_nth (Z.to_nat (sz_to_ind sz c n)) (FS sz c i)) tab,
       i + sumn (code_counts n c sz))).
  { intros c sz tab i.
    rewrite (fold_left_ext_in _ _ _
      (fun (st : list (list (list (list nat))) * nat) ssq => let '(T, i) := st in
        (upd_nth c ((fun ssq i => upd_nth (Z.to_nat (sz_to_ind sz c n))
           (upd_nth (Z.to_nat (ssq_to_ind ssq sz))
             (fun l => l ++ seq i (Z.to_nat (nth (Z.to_nat (ssq_to_ind ssq 0)) (nth c cnt []) 0%Z))))) ssq i) T,
         (fun ssq i => i + Z.to_nat (nth (Z.to_nat (ssq_to_ind ssq 0)) (nth c cnt []) 0%Z)) ssq i))).
    2: { intros [T i'] ssq _. rewrite ssq_fill_cell_eq. reflexivity. }
    rewrite fold_lens. f_equal.
    - apply upd_nth_ext. intros row. rewrite fold_lens. simpl. apply upd_nth_ext. intros cells.
      reflexivity.
    - rewrite fold_add_counts. unfold code_counts. fold cnt. reflexivity. }
  assert (E2 : forall c tab i,
    fold_left (fun st sz =>
      fold_left (fun st ssq =>
       ssq_fill_cell c (Z.to_nat (sz_to_ind sz c n)) (Z.to_nat (ssq_to_ind ssq sz))
          (nth (Z.to_nat (ssq_to_ind ssq 0)) (nth c cnt []) 0%Z) st)
      (ssqrange c sz n) st) (szrange c n) (tab, i)
    = (upd_nth c (FC c i) tab,
       fold_left (fun i sz => i + sumn (code_counts n c sz)) (szrange c n) i)).
  { intros c tab i.
    rewrite (fold_left_ext_in _ _ _
      (fun (st : list (list (list (list nat))) * nat) sz => let '(T, i) := st in
        (upd_nth c ((fun sz i => upd_nth (Z.to_nat (sz_to_ind sz c n)) (FS sz c i)) sz i) T,
         (fun sz i => i + sumn (code_counts n c sz)) sz i))).
    2: { intros [T i'] sz _. apply E3. }
    rewrite fold_lens. reflexivity. }
  assert (E1 : forall cs T i, fold_left (fun st c =>
      fold_left (fun st sz =>
       fold_left (fun st ssq =>
        ssq_fill_cell c (Z.to_nat (sz_to_ind sz c n)) (Z.to_nat (ssq_to_ind ssq sz))
          (nth (Z.to_nat (ssq_to_ind ssq 0)) (nth c cnt []) 0%Z) st)
       (ssqrange c sz n) st) (szrange c n) st) cs (T, i)
    = fold_left (fun (st : list (list (list (list nat))) * nat) c => let '(T, i) := st in
        (upd_nth c (FC c i) T, fold_left (fun i sz => i + sumn (code_counts n c sz)) (szrange c n) i))
        cs (T, i)).
  { intros cs T i. apply fold_left_ext_in. intros [T' i'] c _. apply E2. }
  cbv zeta. etransitivity; [exact (f_equal fst (E1 _ _ _))|]. clear E1 E2 E3.
  rewrite (visit_all _ _ FC (fun c i => fold_left (fun i sz => i + sumn (code_counts n c sz)) (szrange c n) i)
             (fun c => c)).
  2: { unfold empty_ssqlst. now rewrite map_length. }
  2: { intros k d Hk. rewrite seq_length in Hk. rewrite (nth_indep _ d 0) by (rewrite seq_length; auto).
       now rewrite seq_nth. }
  simpl fst.
  (* rows *)
  assert (HSZ : forall c, c <= n -> szrange c n = map (fun k => nth k (szrange c n) 0%Z) (seq 0 (S (smax n c)))).
  { intros c Hc. rewrite <- szrange_len by auto. apply list_as_map_nth. }
  assert (HFS : forall c k i, c <= n -> k <= smax n c ->
     FS (nth k (szrange c n) 0%Z) c i (map (fun _ => []) (ssqrange c (nth k (szrange c n) 0%Z) n))
     = enum_counts i (code_counts n c (nth k (szrange c n) 0%Z))).
  { intros c k i Hc Hk. unfold FS. destruct (ssqrange_facts n c k Hc Hk) as [HL HI].
    rewrite (visit_all _ _ (fun ssq i l => l ++ seq i (Z.to_nat (nth (Z.to_nat (ssq_to_ind ssq 0)) (nth c cnt []) 0%Z)))
               (fun ssq i => i + Z.to_nat (nth (Z.to_nat (ssq_to_ind ssq 0)) (nth c cnt []) 0%Z))
               (fun ssq => Z.to_nat (ssq_to_ind ssq (nth k (szrange c n) 0%Z)))).
    - simpl fst. rewrite go_counts. reflexivity.
    - now rewrite map_length.
    - intros t d Ht. rewrite (nth_indep _ d 0%Z) by auto. rewrite HL in Ht.
      destruct (HI t) as [-> _]; [lia|]. apply Nat2Z.id. }
  assert (HFC : forall c i, c <= n ->
     FC c i (map (fun j => map (fun _ => []) (ssqrange c j n)) (szrange c n))
     = enum_rows i (map (fun k => cell_counts n c k) (seq 0 (S (smax n c))))).
  { intros c i Hc. unfold FC.
    rewrite (visit_all _ _ (fun sz i => FS sz c i) (fun sz i => i + sumn (code_counts n c sz))
               (fun sz => Z.to_nat (sz_to_ind sz c n))).
    2: now rewrite map_length.
    2: { intros k d Hk. apply szrange_pos; auto. }
    simpl fst.
    rewrite (go_shape _ _ _ (fun sz i (row : list (list nat)) => enum_counts i (code_counts n c sz)) _ _ _
               (fun j => map (fun _ => []) (ssqrange c j n))).
    3: { intros sz i' Hsz. apply In_nth with (d := 0%Z) in Hsz. destruct Hsz as (k & Hk & <-).
         apply HFS; auto. rewrite szrange_len in Hk by auto. lia. }
    2: reflexivity.
    rewrite (HSZ c Hc) at 1 2. apply go_rows; auto. intros k Hk. apply in_seq in Hk. lia. }
  unfold empty_ssqlst, ssq_counts.
  rewrite (go_shape _ _ _ (fun c i (tab : list (list (list nat))) =>
      enum_rows i (map (fun k => cell_counts n c k) (seq 0 (S (smax n c))))) _ _ _
      (fun i => map (fun j => map (fun _ => []) (ssqrange i j n)) (szrange i n))).
  3: { intros c i Hc. apply in_seq in Hc. apply HFC. lia. }
  2: reflexivity.
  erewrite go_ext.
  - apply go_tabs; auto. intros c Hc. apply in_seq in Hc. lia.
  - intros; reflexivity.
  - intros c i Hc. apply in_seq in Hc. rewrite fold_add_counts. f_equal.
    rewrite (HSZ c) by lia. rewrite !map_map. f_equal. apply map_ext_in. intros k Hk.
    apply in_seq in Hk. f_equal. apply code_counts_eq; auto; lia.
Qed.

Lemma enum_rows_concat : forall rows i, map (@concat nat) (enum_rows i rows)
  = enum_counts i (map sumn rows).
Proof. induction rows; simpl; intros; auto. rewrite enum_counts_concat. f_equal. auto. Qed.

Lemma enum_counts_from : forall A (L : list (list A)) i, enum_counts i (map (@length A) L) = enum_from i L.
Proof. induction L; simpl; intros; auto. f_equal. auto. Qed.

Lemma sumn_total : forall A (L : list (list A)), sumn (map (@length A) L) = total L.
Proof. induction L; simpl; auto. Qed.

Lemma enum_tabs_szlst : forall (L : list (list (list nat))) T i,
  map (map sumn) T = map (map (@length nat)) L ->
  map (map (@concat nat)) (enum_tabs i T) = enum2_from i L.
Proof.
  induction L as [|l L IH]; destruct T as [|t T]; simpl; intros i H; auto; try discriminate.
  injection H as H1 H2. rewrite enum_rows_concat, H1, enum_counts_from, sumn_total. f_equal. auto.
Qed.

(** The ssq cells of (charge, sz), read in order, are exactly the szlst block. *)
Theorem ssqlst_refines_szlst : forall n, Nat.even n = true -> 1 <= n ->
  map (map (@concat nat)) (construct_ssqlst (enum_szlst (construct_szlst n)) n)
  = enum_szlst (construct_szlst n).
Proof.
  intros n He Hn. rewrite construct_ssqlst_enum by auto. apply enum_tabs_szlst.
  unfold ssq_counts. rewrite map_map.
  rewrite (list_as_map_nth _ [] (construct_szlst n)), construct_szlst_length, map_map.
  apply map_ext_in. intros c Hc. apply in_seq in Hc.
  rewrite map_map. rewrite (list_as_map_nth _ [] (nth c (construct_szlst n) [])) at 1.
  rewrite map_map. rewrite construct_szlst_row at 1 by lia.
  rewrite map_length, seq_length, szrange_len by lia.
  apply map_ext_in. intros k Hk. apply in_seq in Hk. fold (szlen n c k).
  apply cell_counts_sum; auto; lia.
Qed.

Lemma concat_enum2 : forall L i, concat (concat (enum2_from i L)) = seq i (total (concat L)).
Proof.
  induction L; simpl; intros; auto. rewrite concat_app, IHL, concat_enum_from, <- seq_app.
  f_equal. rewrite <- !total_concat, concat_app, app_length. auto.
Qed.

Theorem ssqlst_enumerates : forall n, Nat.even n = true -> 1 <= n ->
  concat (concat (concat (construct_ssqlst (enum_szlst (construct_szlst n)) n))) = seq 0 (2 ^ n).
Proof.
  intros n He Hn.
  assert (E : forall (X : list (list (list (list nat)))),
     concat (concat (concat X)) = concat (concat (map (map (@concat nat)) X))).
  { intros X. rewrite concat_concat. f_equal. induction X; simpl; auto.
    rewrite map_app, IHX. auto. }
  rewrite E, ssqlst_refines_szlst by auto. unfold enum_szlst. rewrite concat_enum2. f_equal.
  rewrite <- total_concat. pose proof (construct_szlst_perm n He) as P.
  unfold flatten in P. rewrite (Permutation_length P).
  pose proof (construct_chargelst_perm n) as P2. unfold flatten in P2.
  rewrite (Permutation_length P2). apply seq_length.
Qed.

Lemma enum_rows_nth : forall rows i k, k < length rows ->
  exists s, nth k (enum_rows i rows) [] = enum_counts s (nth k rows []).
Proof.
  induction rows; simpl; intros i k H; [lia|]. destruct k; eauto. apply IHrows. lia.
Qed.

Lemma enum_tabs_nth : forall T i c, c < length T ->
  exists s, nth c (enum_tabs i T) [] = enum_rows s (nth c T []).
Proof.
  induction T; simpl; intros i c H; [lia|]. destruct c; eauto. apply IHT. lia.
Qed.

(** size of a cell depends on (charge, ssq) only *)
Theorem ssq_cell_size : forall n c k t, Nat.even n = true -> c <= n -> k <= smax n c ->
  t <= Nat.min k (smax n c - k) ->
  length (nth t (nth k (nth c (construct_ssqlst (enum_szlst (construct_szlst n)) n) []) []) [])
  = Z.to_nat (diff n c (Nat.min k (smax n c - k) - t)).
Proof.
  intros n c k t He Hc Hk Ht. rewrite construct_ssqlst_enum by auto.
  destruct (enum_tabs_nth (ssq_counts n) 0 c) as (s & E1).
  { unfold ssq_counts. rewrite map_length, seq_length. lia. }
  rewrite E1. unfold ssq_counts. rewrite nth_map_seq by lia.
  destruct (enum_rows_nth (map (fun k => cell_counts n c k) (seq 0 (S (smax n c)))) s k) as (s' & E2).
  { rewrite map_length, seq_length. lia. }
  rewrite E2, nth_map_seq by lia. rewrite enum_counts_nth.
  - unfold cell_counts. now rewrite nth_map_seq by lia.
  - unfold cell_counts. rewrite map_length, seq_length. lia.
Qed.
