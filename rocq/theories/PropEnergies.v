(** Properties C22 and C38: energies of the many-body states and their order. *)
From Coq Require Import String List Arith Lia ZArith Bool QArith Permutation Sorted.
From Verif Require Import Base Bits Indexing IndexingProofs RemoveProofs Binom SsqProofs Qn PropIndexing Selection
  Energies EnergiesProofs.
Import ListNotations.
Open Scope nat_scope.
Local Notation length := List.length.

(** *** C22 *)
(** A state index [k] sits at exactly one position [p] of the block lists, and [Ea[k]] is the eigenvalue at that position
    of [valslst].  The positions of the three kinds of block lists: *)
Definition at_charge (si : SI) (p : nat * nat) (k : nat) : Prop :=
  let '(c, a) := p in c <= si_nsingle si /\ nth_error (nth c (si_chargelst si) []) a = Some k.
Definition at_sz (szlst : list (list (list nat))) (n : nat) (p : nat * nat * nat) (k : nat) : Prop :=
  let '(c, j, a) := p in
  c <= n /\ j < length (szrange c n) /\ nth_error (nth j (nth c szlst []) []) a = Some k.
Definition at_ssq (ssqlst : list (list (list (list nat)))) (n : nat) (p : nat * nat * nat * nat) (k : nat) : Prop :=
  let '(c, j, t, a) := p in
  c <= n /\ j < length (szrange c n) /\ t < length (ssqrange c (nth j (szrange c n) 0%Z) n) /\
  nth_error (nth t (nth j (nth c ssqlst []) []) []) a = Some k.

Theorem C22_charge : forall n indexing si A (zero : A) vals, 1 <= n -> indexed n indexing si ->
  (ix_of indexing n = IxLin \/ ix_of indexing n = IxCharge) ->
  (forall c, c <= n -> length (nth c vals []) = length (nth c (si_chargelst si) [])) ->
  exists Ea, construct_Ea zero (VCharge vals) si = Some Ea /\ length Ea = si_nmany si /\
    (forall c a k, at_charge si (c, a) k -> nth_error Ea k = nth_error (nth c vals []) a) /\
    (forall k, k < si_nmany si -> exists! p, at_charge si p k).
Proof.
  intros n indexing si A zero vals Hn HI Hix HL.
  destruct (indexed_facts _ _ _ Hn HI) as (En & Enc & Eix & live & OK & _).
  pose proof (charge_cells si live OK ltac:(congruence)) as CO. rewrite <- (ok_nmany _ _ OK) in CO.
  destruct (cells_write _ _ _ _ _ _ zero (fun c => nth c vals []) CO) as (Ea & E & Hl & HW).
  { intros c Hc. apply in_seq in Hc. apply HL. lia. }
  assert (IN : forall c, In c (seq 0 (si_ncharge si)) <-> c <= si_nsingle si).
  { intros c. rewrite in_seq. lia. }
  exists Ea. repeat split; auto.
  - unfold construct_Ea, ea_writes. rewrite Eix. destruct Hix as [-> | ->]; exact E.
  - intros c a k [Hc Ha]. apply HW; auto. now apply IN.
  - intros k Hk. destruct (cells_unique _ _ _ _ _ k CO Hk) as ([c a] & [H1 H2] & U). simpl in *.
    exists (c, a). split.
    + split; auto. now apply IN.
    + intros [c' a'] [H3 H4]. apply U. simpl. split; auto. now apply IN.
Qed.
Print Assumptions C22_charge.

Theorem C22_sz : forall n indexing si A (zero : A) vals, 1 <= n -> indexed n indexing si ->
  ix_of indexing n = IxSz ->
  exists szlst, si_szlst si = Some szlst /\
  ((forall c j, c <= n -> j < length (szrange c n) ->
     length (nth j (nth c vals []) []) = length (nth j (nth c szlst []) [])) ->
  exists Ea, construct_Ea zero (VSz vals) si = Some Ea /\ length Ea = si_nmany si /\
    (forall c j a k, at_sz szlst n (c, j, a) k -> nth_error Ea k = nth_error (nth j (nth c vals []) []) a) /\
    (forall k, k < si_nmany si -> exists! p, at_sz szlst n p k)).
Proof.
  intros n indexing si A zero vals Hn HI Hix.
  destruct (indexed_facts _ _ _ Hn HI) as (En & Enc & Eix & live & OK & SZ & _).
  specialize (SZ (or_introl Hix)).
  assert (He : Nat.even (si_nsingle si) = true) by (rewrite En; eapply ix_of_even; eauto).
  pose proof (szcells_ok si live OK ltac:(congruence) He SZ) as CO. rewrite <- (ok_nmany _ _ OK) in CO.
  destruct SZ as (szlst & Esz & _). exists szlst. split; auto. intros HL.
  assert (IN : forall c sz, In (c, sz) (sz_cells (si_nsingle si) (si_ncharge si)) ->
     exists j, c <= n /\ j < length (szrange c n) /\ sz = nth j (szrange c n) 0%Z).
  { intros c sz H. apply sz_cells_in in H. rewrite En, Enc in H. destruct H as [Hc H].
    apply In_nth with (d := 0%Z) in H. destruct H as (j & Hj & E). exists j. split; [lia|]. auto. }
  assert (NI : forall c j, c <= n -> j < length (szrange c n) ->
     In (c, nth j (szrange c n) 0%Z) (sz_cells (si_nsingle si) (si_ncharge si))).
  { intros c j Hc Hj. apply sz_cells_in. rewrite En, Enc. split; [lia|]. now apply nth_In. }
  assert (BLK : forall c j, c <= n -> j < length (szrange c n) ->
     sz_blk si (c, nth j (szrange c n) 0%Z) = nth j (nth c szlst []) []).
  { intros c j Hc Hj. unfold sz_blk. rewrite Esz, En. simpl. now rewrite szrange_pos. }
  destruct (cells_write _ _ _ _ _ _ zero
     (fun x => nth (Z.to_nat (sz_to_ind (snd x) (fst x) n)) (nth (fst x) vals []) []) CO) as (Ea & E & Hl & HW).
  { intros [c sz] H. destruct (IN c sz H) as (j & Hc & Hj & ->). rewrite BLK by auto. simpl.
    rewrite szrange_pos by auto. auto. }
  exists Ea. repeat split; auto.
  - unfold construct_Ea, ea_writes. rewrite Eix, Hix, <- E. f_equal.
    unfold sz_cells. rewrite flat_map_flat_map. apply flat_map_ext. intros c. rewrite flat_map_map.
    apply flat_map_ext. intros sz. rewrite En. unfold sz_blk. simpl. now rewrite En.
  - intros c j a k (Hc & Hj & Ha). rewrite <- (BLK c j Hc Hj) in Ha.
    rewrite (HW _ _ _ (NI c j Hc Hj) Ha). simpl. now rewrite szrange_pos.
  - intros k Hk. destruct (cells_unique _ _ _ _ _ k CO Hk) as ([[c sz] a] & [H1 H2] & U). simpl fst in *. simpl snd in *.
    destruct (IN c sz H1) as (j & Hc & Hj & ->). rewrite (BLK c j Hc Hj) in H2.
    exists (c, j, a). split; [repeat split; auto|].
    intros [[c' j'] a'] (H3 & H4 & H5). rewrite <- (BLK c' j' H3 H4) in H5.
    specialize (U ((c', nth j' (szrange c' n) 0%Z), a')). simpl in U.
    injection (U (Logic.conj (NI c' j' H3 H4) H5)) as <- Ej <-.
    f_equal. f_equal. rewrite <- (szrange_pos n c j 0%Z), <- (szrange_pos n c j' 0%Z) by auto. now rewrite Ej.
Qed.
Print Assumptions C22_sz.

Theorem C22_ssq : forall n indexing A (zero : A) vals, 1 <= n -> ix_of indexing n = IxSsq ->
  let si := si_init n indexing in
  exists ssqlst, si_ssqlst si = Some ssqlst /\
  ((forall c j t, c <= n -> j < length (szrange c n) -> t < length (ssqrange c (nth j (szrange c n) 0%Z) n) ->
     length (nth t (nth j (nth c vals []) []) []) = length (nth t (nth j (nth c ssqlst []) []) [])) ->
  exists Ea, construct_Ea zero (VSsq vals) si = Some Ea /\ length Ea = 2 ^ n /\
    (forall c j t a k, at_ssq ssqlst n (c, j, t, a) k ->
       nth_error Ea k = nth_error (nth t (nth j (nth c vals []) []) []) a) /\
    (forall k, k < 2 ^ n -> exists! p, at_ssq ssqlst n p k)).
Proof.
  intros n indexing A zero vals Hn Hix si.
  pose proof (ssq_init_cells n indexing Hn Hix) as CO. cbv zeta in CO. fold si in CO.
  pose proof (si_init_ok n indexing) as OK. fold si in OK.
  rewrite <- (ok_nmany _ _ OK) in CO.
  assert (En : si_nsingle si = n) by apply init_n.
  assert (Enc : si_ncharge si = n + 1) by (unfold si, si_init; rewrite Hix; reflexivity).
  assert (Em : si_nmany si = 2 ^ n) by (unfold si, si_init; rewrite Hix; reflexivity).
  rewrite Em in CO.
  assert (Essq : exists l, si_ssqlst si = Some l).
  { unfold si, si_init. rewrite Hix. eexists. reflexivity. }
  destruct Essq as (ssqlst & Essq). exists ssqlst. split; auto. intros HL.
  assert (PT : forall c j t, c <= n -> j < length (szrange c n) -> t < length (ssqrange c (nth j (szrange c n) 0%Z) n) ->
     Z.to_nat (ssq_to_ind (nth t (ssqrange c (nth j (szrange c n) 0%Z) n) 0%Z) (nth j (szrange c n) 0%Z)) = t).
  { intros c j t Hc Hj Ht. rewrite szrange_len in Hj by auto.
    destruct (ssqrange_facts n c j Hc ltac:(lia)) as [L F]. rewrite L in Ht. destruct (F t ltac:(lia)) as [-> _].
    apply Nat2Z.id. }
  assert (IN : forall c sz q, In (c, sz, q) (ssq_cells si) ->
     exists j t, c <= n /\ j < length (szrange c n) /\ t < length (ssqrange c (nth j (szrange c n) 0%Z) n) /\
       sz = nth j (szrange c n) 0%Z /\ q = nth t (ssqrange c (nth j (szrange c n) 0%Z) n) 0%Z).
  { intros c sz q H. apply ssq_cells_in in H. destruct H as [H Hq]. apply sz_cells_in in H. rewrite En, Enc in H.
    destruct H as [Hc H]. apply In_nth with (d := 0%Z) in H. destruct H as (j & Hj & <-).
    simpl in Hq. rewrite En in Hq. apply In_nth with (d := 0%Z) in Hq. destruct Hq as (t & Ht & <-).
    exists j, t. repeat split; auto. lia. }
  assert (NI : forall c j t, c <= n -> j < length (szrange c n) -> t < length (ssqrange c (nth j (szrange c n) 0%Z) n) ->
     In (c, nth j (szrange c n) 0%Z, nth t (ssqrange c (nth j (szrange c n) 0%Z) n) 0%Z) (ssq_cells si)).
  { intros c j t Hc Hj Ht. apply ssq_cells_in. split.
    - apply sz_cells_in. rewrite En, Enc. split; [lia|]. now apply nth_In.
    - simpl. rewrite En. now apply nth_In. }
  assert (BLK : forall c j t, c <= n -> j < length (szrange c n) -> t < length (ssqrange c (nth j (szrange c n) 0%Z) n) ->
     ssq_blk si (c, nth j (szrange c n) 0%Z, nth t (ssqrange c (nth j (szrange c n) 0%Z) n) 0%Z)
     = nth t (nth j (nth c ssqlst []) []) []).
  { intros c j t Hc Hj Ht. unfold ssq_blk. rewrite Essq, En. simpl. rewrite PT by auto. now rewrite szrange_pos. }
  destruct (cells_write _ _ _ _ _ _ zero
     (fun x => nth (Z.to_nat (ssq_to_ind (snd x) (snd (fst x))))
        (nth (Z.to_nat (sz_to_ind (snd (fst x)) (fst (fst x)) n)) (nth (fst (fst x)) vals []) []) []) CO) as (Ea & E & Hl & HW).
  { intros [[c sz] q] H. destruct (IN c sz q H) as (j & t & Hc & Hj & Ht & -> & ->). rewrite BLK by auto. simpl.
    rewrite PT, szrange_pos by auto. auto. }
  exists Ea. repeat split; auto.
  - unfold construct_Ea, ea_writes. rewrite Em. unfold si at 1. rewrite init_ix, Hix, <- E. f_equal.
    unfold ssq_cells, sz_cells. rewrite !flat_map_flat_map. apply flat_map_ext. intros c. rewrite flat_map_map.
    apply flat_map_ext. intros sz. rewrite flat_map_map. simpl. rewrite En.
    apply flat_map_ext. intros q. unfold ssq_blk. simpl. now rewrite En.
  - intros c j t a k (Hc & Hj & Ht & Ha). rewrite <- (BLK c j t Hc Hj Ht) in Ha.
    rewrite (HW _ _ _ (NI c j t Hc Hj Ht) Ha). simpl. now rewrite PT, szrange_pos.
  - intros k Hk. destruct (cells_unique _ _ _ _ _ k CO Hk) as ([[[c sz] q] a] & [H1 H2] & U). simpl fst in *. simpl snd in *.
    destruct (IN c sz q H1) as (j & t & Hc & Hj & Ht & -> & ->). rewrite (BLK c j t Hc Hj Ht) in H2.
    exists (c, j, t, a). split; [repeat split; auto|].
    intros [[[c' j'] t'] a'] (H3 & H4 & H5 & H6). rewrite <- (BLK c' j' t' H3 H4 H5) in H6.
    specialize (U (_, a') (Logic.conj (NI c' j' t' H3 H4 H5) H6)).
    injection U as <- Ej Eq <-.
    assert (j = j').
    { rewrite <- (szrange_pos n c j 0%Z), <- (szrange_pos n c j' 0%Z) by auto. now rewrite Ej. }
    subst j'. do 2 f_equal. rewrite <- (PT c j t), <- (PT c j t') by auto. now rewrite Eq.
Qed.
Print Assumptions C22_ssq.

Example C22_charge_case : construct_Ea 0%Q (VCharge [[7]; [1; 2]; [5]])%Q (si_init 2 "charge") = Some [7; 1; 2; 5]%Q.
Proof. vm_compute. reflexivity. Qed.
Example C22_lin_case : construct_Ea 0%Q (VCharge [[7]; [1; 2; 3]; [4; 5; 6]; [8]])%Q (si_init 3 "Lin") = Some [7; 1; 2; 4; 3; 5; 6; 8]%Q.
Proof. vm_compute. reflexivity. Qed.
Example C22_removed_case : exists si, remove_many (si_init 2 "sz") [[1]] = Some si /\
  construct_Ea 0%Q (VSz [[[7]]; [[]; [2]]; [[5]]])%Q si = Some [7; 2; 5]%Q /\ si_nmany si = 3.
Proof. eexists. split; [vm_compute; reflexivity|]. vm_compute. auto. Qed.
Example C22_ssq_case : construct_Ea 0%Q (VSsq [[[[10]]]; [[[20; 21]]; [[22; 23]]];
    [[[30]]; [[31; 32; 33]; [34]]; [[35]]]; [[[40; 41]]; [[42; 43]]]; [[[50]]]])%Q (si_init 4 "ssq")
  = Some [10; 20; 21; 22; 23; 30; 31; 32; 33; 34; 35; 40; 41; 42; 43; 50]%Q.
Proof. vm_compute. reflexivity. Qed.
Example C22_hyps : indexed 2 "charge" (si_init 2 "charge") /\
  exists si, indexed 2 "sz" si /\ si_nmany si = 3.
Proof.
  split; [exists []; simpl; intuition|].
  destruct (remove_many (si_init 2 "sz") [[1]]) as [si|] eqn:E; [|vm_compute in E; discriminate].
  exists si. split.
  - exists [[1]]. split; [right; right; reflexivity|]. split; auto. intros k Hk. simpl in *. lia.
  - vm_compute in E. injection E as <-. reflexivity.
Qed.

(** *** C38 *)
(** The documented property numbers (various.py 57-64, 175-192): 0 energy, 1 charge, 2 spin projection and
    3 total spin where the indexing has them, last the state number. *)
Definition properties (si : SI) : nat :=
  match si_indexing si with IxSsq => 5 | IxSz => 4 | _ => 3 end.
Definition has_property (si : SI) (E : list Q) (p b : nat) (v : Q) : Prop :=
  exists s, get_state si b = Some s /\
  let state_number := v = inject_Z (Z.of_nat b) in
  let spin_projection := v = inject_Z (up_minus_down s) in
  match p with
  | 0 => nth_error E b = Some v
  | 1 => v = inject_Z (Z.of_nat (electrons s))
  | 2 => match si_indexing si with IxSsq | IxSz => spin_projection | _ => state_number end
  | 3 => match si_indexing si with
         | IxSsq => exists t block, v = inject_Z t /\ In t (ssqrange (electrons s) (up_minus_down s) (si_nsingle si)) /\
             get_lst si (electrons s) (Some (up_minus_down s)) (Some t) = Some block /\ In b block
         | IxSz => state_number
         | _ => False
         end
  | 4 => match si_indexing si with IxSsq => state_number | _ => False end
  | _ => False
  end.
(** a requested key is a Python index: -1 is the last property *)
Definition key_property (si : SI) (key : Z) : nat :=
  if (key <? 0)%Z then Z.to_nat (Z.of_nat (properties si) + key) else Z.to_nat key.
Definition valid_key (si : SI) (key : Z) : Prop :=
  (- Z.of_nat (properties si) <= key < Z.of_nat (properties si))%Z.
(** state [a] comes before state [b]: the first requested property in which they differ decides; ties go by state number *)
Inductive before (si : SI) (E : list Q) : list Z -> nat -> nat -> Prop :=
| before_tie : forall a b, a < b -> before si E [] a b
| before_less : forall key keys a b x y, has_property si E (key_property si key) a x ->
    has_property si E (key_property si key) b y -> (x < y)%Q -> before si E (key :: keys) a b
| before_equal : forall key keys a b x y, has_property si E (key_property si key) a x ->
    has_property si E (key_property si key) b y -> (x == y)%Q -> before si E keys a b -> before si E (key :: keys) a b.

(** Table of properties as cached in [Ea_ext]. *)
Definition ext_ok (si : SI) (E : list Q) (rows : list (list Q)) : Prop :=
  exists mid, rows = E :: mid ++ [arange (si_nmany si)] /\
    Forall2 (fun j row => length row = si_nmany si /\
      forall k q, ind_qn si k = Some q -> nth_error row k = Some (inject_Z (nth j q 0%Z))) (seq 0 (qn_rows si)) mid.

Lemma construct_ext_ok : forall n indexing si E, 1 <= n -> indexed n indexing si -> length E = si_nmany si ->
  exists rows, construct_ext si E = Some rows /\ ext_ok si E rows.
Proof.
  intros n indexing si E Hn HI HE. destruct (indexed_qn _ _ _ Hn HI) as [INV _].
  unfold construct_ext. rewrite HE, Nat.eqb_refl.
  destruct (all_some_map _ _ (qn_row si (si_nmany si))
    (fun j row => length row = si_nmany si /\
      forall k q, ind_qn si k = Some q -> nth_error row k = Some (inject_Z (nth j q 0%Z))) (seq 0 (qn_rows si)))
    as (mid & E1 & E2).
  { intros j _. apply qn_row_spec; auto. }
  rewrite E1. simpl. eexists. split; [reflexivity|]. exists mid. auto.
Qed.

Lemma forall2_len : forall A B (P : A -> B -> Prop) l l', Forall2 P l l' -> length l = length l'.
Proof. induction 1; simpl; auto. Qed.
Lemma ext_rows_length : forall si E rows, ext_ok si E rows -> length rows = properties si.
Proof.
  intros si E rows (mid & -> & H). apply forall2_len in H. rewrite seq_length in H.
  simpl. rewrite app_length. simpl. unfold properties, qn_rows in *. destruct (si_indexing si); lia.
Qed.

Lemma ssq_block_of_qn : forall si q k, si_indexing si = IxSsq -> qn_ind si q = Some k ->
  exists c sz ssq a, q = [Z.of_nat c; sz; ssq; Z.of_nat a] /\ c < si_ncharge si /\ In sz (szrange c (si_nsingle si)) /\
    In ssq (ssqrange c sz (si_nsingle si)) /\
    In k (nth (Z.to_nat (ssq_to_ind ssq sz)) (nth (Z.to_nat (sz_to_ind sz c (si_nsingle si)))
            (nth c (match si_ssqlst si with Some l => l | None => [] end) []) []) []).
Proof.
  intros si q k Hix H. unfold qn_ind, make_quantum_numbers in H. simpl in H.
  apply dict_build_in in H; [|apply list_Z_eqb_ok]. unfold qn_pairs in H. rewrite Hix in H.
  apply in_flat_map in H. destruct H as (c & Hc & H). apply in_flat_map in H. destruct H as (sz & Hsz & H).
  apply in_flat_map in H. destruct H as (ssq & Hq & H). apply block_pairs_in in H. destruct H as (a & Ha & -> & ->).
  exists c, sz, ssq, a. apply in_seq in Hc. split; [reflexivity|]. split; [lia|]. split; auto. split; auto. now apply nth_In.
Qed.

Lemma ssq_get_lst : forall n indexing c sz ssq, 1 <= n -> ix_of indexing n = IxSsq ->
  let si := si_init n indexing in
  c <= n -> In sz (szrange c n) -> In ssq (ssqrange c sz n) ->
  get_lst si c (Some sz) (Some ssq) =
    Some (nth (Z.to_nat (ssq_to_ind ssq sz)) (nth (Z.to_nat (sz_to_ind sz c n))
            (nth c (match si_ssqlst si with Some l => l | None => [] end) []) []) []).
Proof.
  intros n indexing c sz ssq Hn Hix si Hc Hsz Hq.
  assert (He : Nat.even n = true) by (eapply ix_of_even; eauto).
  assert (ES : si = si_init n "ssq").
  { assert (H : ix_of "ssq" n = IxSsq) by (unfold ix_of; simpl; now rewrite He).
    unfold si, si_init. now rewrite Hix, H. }
  destruct (proj1 (C04_ssq_blocks n Hn He) c sz ssq Hc Hsz Hq) as (l & H). rewrite <- ES in H. rewrite H. f_equal.
  assert (P1 : (0 <= sz_to_ind sz c n)%Z).
  { apply In_nth with (d := 0%Z) in Hsz. destruct Hsz as (j & Hj & <-). rewrite sz_to_ind_szrange by auto. lia. }
  assert (P2 : (0 <= ssq_to_ind ssq sz)%Z).
  { apply In_nth with (d := 0%Z) in Hsz. destruct Hsz as (j & Hj & <-).
    apply In_nth with (d := 0%Z) in Hq. destruct Hq as (t & Ht & <-).
    rewrite szrange_len in Hj by auto. destruct (ssqrange_facts n c j Hc ltac:(lia)) as [L F].
    rewrite L in Ht. destruct (F t ltac:(lia)) as [-> _]. lia. }
  unfold get_lst in H. unfold si in H at 3. rewrite init_n in H.
  destruct (si_szlst si) eqn:E1; [|unfold si, si_init in E1; rewrite Hix in E1; discriminate].
  destruct (si_ssqlst si) eqn:E2; [|unfold si, si_init in E2; rewrite Hix in E2; discriminate].
  destruct (nth_error l1 c) eqn:E3; [|discriminate]. rewrite py_nth_nonneg in H by auto.
  destruct (nth_error l2 (Z.to_nat (sz_to_ind sz c n))) eqn:E4; [|discriminate]. rewrite py_nth_nonneg in H by auto.
  rewrite (nth_error_nth _ _ [] E3), (nth_error_nth _ _ [] E4), (nth_error_nth _ _ [] H). reflexivity.
Qed.

(** The table holds the documented properties. *)
Lemma table_property : forall n indexing si E rows p b, 1 <= n -> indexed n indexing si -> length E = si_nmany si ->
  ext_ok si E rows -> p < properties si -> b < si_nmany si ->
  has_property si E p b (nth b (nth p rows []) 0%Q).
Proof.
  intros n indexing si E rows p b Hn HI HE (mid & -> & HM) Hp Hb.
  destruct (indexed_facts _ _ _ Hn HI) as (En & Enc & Eix & live & OK & SZ & SS).
  destruct (indexed_qn _ _ _ Hn HI) as [[INV COV] MEAN].
  destruct (proj2 (COV b) Hb) as (q & Hq). pose proof (proj2 (INV q b) Hq) as Hq'.
  destruct (MEAN q b Hq') as (s & Es & E0 & E1).
  assert (Ls : length s = si_nsingle si).
  { rewrite get_state_occ in Es by (rewrite <- (ok_nmany _ _ OK); auto). injection Es as <-. apply occ_length; [lia|].
    apply (ok_i_in _ _ OK), nth_In. rewrite <- (ok_nmany _ _ OK). auto. }
  rewrite <- electrons_charge in E0. rewrite <- (umd_sz _ _ Ls) in E1.
  assert (AR : nth b (arange (si_nmany si)) 0%Q = inject_Z (Z.of_nat b)).
  { unfold arange. rewrite nth_map_lt with (d' := 0) by now rewrite seq_length. now rewrite seq_nth. }
  exists s. split; auto.
  unfold properties, qn_rows in *. destruct (si_indexing si) eqn:IX; cbn [seq] in HM.
  - inversion HM as [|? r ? ? [Hl Hr] HM1]; subst. inversion HM1; subst.
    destruct p as [|[|[|p]]]; [| | |lia]; cbn [nth app].
    + now apply nth_error_nth'; rewrite HE.
    + rewrite <- E0. now apply nth_error_nth, Hr.
    + exact AR.
  - inversion HM as [|? r ? ? [Hl Hr] HM1]; subst. inversion HM1; subst.
    destruct p as [|[|[|p]]]; [| | |lia]; cbn [nth app].
    + now apply nth_error_nth'; rewrite HE.
    + rewrite <- E0. now apply nth_error_nth, Hr.
    + exact AR.
  - inversion HM as [|? r ? ? [Hl Hr] HM1]; subst. inversion HM1 as [|? r2 ? ? [Hl2 Hr2] HM2]; subst. inversion HM2; subst.
    destruct p as [|[|[|[|p]]]]; [| | | |lia]; cbn [nth app].
    + now apply nth_error_nth'; rewrite HE.
    + rewrite <- E0. now apply nth_error_nth, Hr.
    + rewrite <- E1 by auto. now apply nth_error_nth, Hr2.
    + exact AR.
  - inversion HM as [|? r ? ? [Hl Hr] HM1]; subst. inversion HM1 as [|? r2 ? ? [Hl2 Hr2] HM2]; subst.
    inversion HM2 as [|? r3 ? ? [Hl3 Hr3] HM3]; subst. inversion HM3; subst.
    destruct p as [|[|[|[|[|p]]]]]; [| | | | |lia]; cbn [nth app].
    + now apply nth_error_nth'; rewrite HE.
    + rewrite <- E0. now apply nth_error_nth, Hr.
    + rewrite <- E1 by auto. now apply nth_error_nth, Hr2.
    + destruct (ssq_block_of_qn si q b IX Hq') as (c & sz & t & a & -> & Hc & Hsz & Ht & Hin).
      simpl in E0, E1. specialize (E1 (or_intror eq_refl)). apply Nat2Z.inj in E0. rewrite <- E0, <- E1.
      exists t. eexists. split; [|split; [exact Ht|split; [|exact Hin]]].
      * now apply nth_error_nth, (Hr3 b _ Hq).
      * pose proof (ssq_get_lst _ indexing c sz t Hn (eq_sym Eix)) as G. cbv zeta in G.
        rewrite <- SS in G by auto. apply G; auto. lia.
    + exact AR.
Qed.

Lemma all_some_total : forall A B (f : A -> option B) g l, (forall a, In a l -> f a = Some (g a)) ->
  all_some (map f l) = Some (map g l).
Proof. induction l as [|a l IH]; simpl; intros H; auto. rewrite H by auto. now rewrite IH by auto. Qed.

Lemma isort_ext : forall le le' l, (forall a b, le a b = le' a b) -> isort le l = isort le' l.
Proof.
  intros le le' l H. assert (IE : forall x l, insert le x l = insert le' x l).
  { induction l0 as [|y r IH]; simpl; auto. now rewrite H, IH. }
  induction l as [|x l IH]; simpl; auto. now rewrite IH, IE.
Qed.

Section OneSort.
Variables (n : nat) (indexing : string) (si : SI) (E : list Q) (rows : list (list Q)).
Hypothesis Hn : 1 <= n.
Hypothesis HI : indexed n indexing si.
Hypothesis HE : length E = si_nmany si.
Hypothesis EXT : ext_ok si E rows.
Let g (key : Z) : list Q := nth (key_property si key) rows [].
Let vals (keys : list Z) (i : nat) : list Q := map (fun key => nth i (g key) 0%Q) keys.

Lemma key_property_lt : forall key, valid_key si key -> key_property si key < properties si.
Proof. intros key H. unfold valid_key, key_property in *. destruct (Z.ltb_spec key 0); lia. Qed.

Lemma py_nth_key : forall key, valid_key si key -> py_nth rows key = Some (g key).
Proof.
  intros key H. pose proof (key_property_lt key H) as L. pose proof (ext_rows_length _ _ _ EXT) as LR.
  unfold g. rewrite <- (nth_error_nth' rows []) by lia.
  unfold py_nth, key_property in *. unfold valid_key in H.
  destruct (Z.ltb_spec key 0); destruct (Z.leb_spec 0 key); try lia; auto.
  rewrite LR. destruct (Z.leb_spec (- Z.of_nat (properties si)) key); [reflexivity|lia].
Qed.

Lemma last_valid : valid_key si (-1).
Proof. unfold valid_key, properties. destruct (si_indexing si); lia. Qed.
Lemma g_last : g (-1) = arange (si_nmany si).
Proof.
  pose proof (ext_rows_length _ _ _ EXT) as LR. unfold g, key_property.
  destruct EXT as (mid & ER & _). rewrite ER in *.
  rewrite app_comm_cons in *. rewrite app_length in LR. simpl length in LR.
  destruct (Z.ltb_spec (-1) 0); [|lia].
  rewrite app_nth2 by (simpl length; lia).
  replace (Z.to_nat (Z.of_nat (properties si) + -1) - length (E :: mid)) with 0 by (simpl length; lia). reflexivity.
Qed.
Lemma arange_nth : forall i, i < si_nmany si -> nth i (arange (si_nmany si)) 0%Q = inject_Z (Z.of_nat i).
Proof. intros i H. unfold arange. rewrite nth_map_lt with (d' := 0) by now rewrite seq_length. now rewrite seq_nth. Qed.

Lemma lex_before : forall keys a b, (forall key, In key keys -> valid_key si key) ->
  a < si_nmany si -> b < si_nmany si -> a <> b ->
  lex_le (vals (keys ++ [(-1)%Z]) a) (vals (keys ++ [(-1)%Z]) b) = true -> before si E keys a b.
Proof.
  induction keys as [|key keys IH]; intros a b HK Ha Hb Hab H.
  - unfold vals in H. simpl in H. rewrite g_last in H. rewrite !arange_nth in H by auto.
    constructor. destruct (q_lt (inject_Z (Z.of_nat a)) (inject_Z (Z.of_nat b))) eqn:L.
    + apply q_lt_spec in L. rewrite <- Zlt_Qlt in L. lia.
    + destruct (q_lt (inject_Z (Z.of_nat b)) (inject_Z (Z.of_nat a))) eqn:L2; [discriminate|].
      apply q_lt_false in L, L2. rewrite <- Zle_Qle in L, L2. lia.
  - unfold vals in H. simpl in H.
    assert (PA : forall c, c < si_nmany si -> has_property si E (key_property si key) c (nth c (g key) 0%Q)).
    { intros c Hc. apply (table_property n indexing); auto. apply key_property_lt, HK. now left. }
    destruct (q_lt (nth a (g key) 0%Q) (nth b (g key) 0%Q)) eqn:L.
    + apply q_lt_spec in L. eapply before_less; eauto.
    + destruct (q_lt (nth b (g key) 0%Q) (nth a (g key) 0%Q)) eqn:L2; [discriminate|].
      apply q_lt_false in L, L2. eapply before_equal; eauto.
      * now apply Qle_antisym.
      * apply IH; auto. intros k Hk. apply HK. now right.
Qed.

Lemma one_sort : forall keys, (forall key, In key keys -> valid_key si key) ->
  exists srtd row, multiarray_sort rows (keys ++ [(-1)%Z]) = Some srtd /\ py_nth srtd (-1) = Some row /\
    Permutation (seq 0 (si_nmany si)) (map to_index row) /\
    StronglySorted (before si E keys) (map to_index row).
Proof.
  intros keys HK. set (l := keys ++ [(-1)%Z]).
  assert (HL : forall key, In key l -> valid_key si key).
  { intros key H. apply in_app_iff in H. destruct H as [H|[<-|[]]]; auto. apply last_valid. }
  set (le := fun i j => lex_le (vals l i) (vals l j)).
  set (ind := isort le (seq 0 (si_nmany si))).
  assert (EM : multiarray_sort rows l = Some (map (fun row => map (fun i => nth i row 0%Q) ind) rows)).
  { unfold multiarray_sort. rewrite (all_some_total _ _ _ g).
    2:{ intros key H. apply in_rev in H. apply py_nth_key. auto. }
    assert (LS : lexsort (map g (rev l)) = Some ind); [|now rewrite LS].
    assert (RV : rev (map g (rev l)) = map g l) by now rewrite <- map_rev, rev_involutive.
    unfold lexsort. rewrite RV. unfold l at 1. rewrite rev_app_distr. cbn [rev app map]. f_equal.
    unfold ind. rewrite g_last. unfold arange. rewrite map_length, seq_length.
    apply isort_ext. intros a b. unfold le, vals. now rewrite !map_map. }
  assert (PM : Permutation (seq 0 (si_nmany si)) ind) by apply isort_perm.
  assert (IN : forall i, In i ind -> i < si_nmany si).
  { intros i H. apply Permutation_in with (l' := seq 0 (si_nmany si)) in H; [|now apply Permutation_sym].
    apply in_seq in H. lia. }
  eexists. exists (map (fun i => nth i (arange (si_nmany si)) 0%Q) ind). split; [exact EM|]. split.
  { destruct EXT as (mid & ER & _). rewrite ER, app_comm_cons, map_app. cbn [map]. apply py_nth_last. }
  assert (EI : map to_index (map (fun i => nth i (arange (si_nmany si)) 0%Q) ind) = ind).
  { rewrite map_map. rewrite <- (map_id ind) at 2. apply map_ext_in. intros i Hi. rewrite arange_nth by auto.
    unfold to_index, inject_Z. cbn [Qnum Qden]. rewrite Z.quot_1_r. apply Nat2Z.id. }
  rewrite EI. split; auto.
  assert (ND : NoDup ind) by (eapply Permutation_NoDup; [exact PM|apply seq_NoDup]).
  assert (SS : StronglySorted (fun a b => le a b = true) ind).
  { apply isort_sorted; unfold le.
    - intros. apply lex_le_total.
    - intros a b c. apply lex_le_trans; unfold vals; now rewrite !map_length. }
  revert ND SS IN. generalize ind. induction ind0 as [|x r IHr]; intros ND SS IN; [constructor|].
  inversion ND; subst. inversion SS as [|? ? S1 S2]; subst. constructor.
  - apply IHr; auto. intros; apply IN; now right.
  - rewrite Forall_forall in *. intros y Hy. apply lex_before; auto.
    + apply IN. now left.
    + apply IN. now right.
    + intros ->. contradiction.
    + apply S2; auto.
Qed.
End OneSort.

(** Every finite history of calls (without exceptions) keeps the cached table right. *)
Definition removals_ok (n : nat) (indexing : string) (ops : list SortOp) : Prop :=
  forall lin, In (OpRemove lin) ops ->
    (ix_of indexing n = IxCharge \/ ix_of indexing n = IxSz) /\ forall k, In k lin -> k < 2 ^ n.
Definition sort_inv (n : nat) (indexing : string) (st : SI * Sorted_) : Prop :=
  indexed n indexing (fst st) /\
  match so_ext (snd st) with
  | None => True
  | Some rows => exists E, length E = si_nmany (fst st) /\ ext_ok (fst st) E rows
  end.

Lemma sort_call_ext : forall n indexing si st E keys, 1 <= n -> sort_inv n indexing (si, st) ->
  length E = si_nmany si -> (forall key, In key keys -> valid_key si key) ->
  exists st', sort_eigenstates si E (Some keys) st = Some (st', Some (keys ++ [(-1)%Z])) /\
    Permutation (seq 0 (si_nmany si)) (so_order st') /\ StronglySorted (before si E keys) (so_order st').
Proof.
  intros n indexing si st E keys Hn [HI HX] HE HK. simpl in HI, HX.
  assert (X : exists rows, (match so_ext st with
                 | None => construct_ext si E
                 | Some (row0 :: rows) => if length E =? length row0 then Some (E :: rows) else None
                 | Some [] => None
                 end) = Some rows /\ ext_ok si E rows).
  { destruct (so_ext st) as [rows|].
    - destruct HX as (E0 & HE0 & mid & -> & HM). rewrite HE, HE0, Nat.eqb_refl.
      eexists. split; [reflexivity|]. exists mid. auto.
    - eapply construct_ext_ok; eauto. }
  destruct X as (rows & EX & OKX).
  destruct (one_sort n indexing si E rows Hn HI HE OKX keys HK) as (srtd & row & E1 & E2 & E3 & E4).
  unfold sort_eigenstates. rewrite EX, E1, E2. eexists. split; [reflexivity|]. auto.
Qed.

Lemma sort_step_inv : forall n indexing op st st', 1 <= n -> removals_ok n indexing [op] ->
  sort_inv n indexing st -> sort_step (Some st) op = Some st' -> sort_inv n indexing st'.
Proof.
  intros n indexing op [si s] st' Hn HR [HI HX] H. simpl in HI, HX. destruct op as [E srt|lin]; simpl in H.
  - destruct (sort_eigenstates si E srt s) as [[s' r]|] eqn:ES; [|discriminate]. injection H as <-.
    split; auto. simpl. unfold sort_eigenstates in ES.
    destruct srt as [keys|]; [|injection ES as <- <-; exact HX].
    assert (X : exists rows, (match so_ext s with
                 | None => construct_ext si E
                 | Some (row0 :: rows) => if length E =? length row0 then Some (E :: rows) else None
                 | Some [] => None
                 end) = Some rows /\ length E = si_nmany si /\ ext_ok si E rows).
    { destruct (so_ext s) as [rows|].
      - destruct HX as (E0 & HE0 & mid & -> & HM). rewrite HE0 in *.
        destruct (Nat.eqb_spec (length E) (si_nmany si)) as [e|]; [|discriminate].
        eexists. split; [reflexivity|]. split; auto. exists mid. auto.
      - assert (HE : length E = si_nmany si).
        { unfold construct_ext in ES. destruct (Nat.eqb_spec (length E) (si_nmany si)); [auto|discriminate]. }
        destruct (construct_ext_ok n indexing si E Hn HI HE) as (rows & -> & OKX). eauto. }
    destruct X as (rows & EX & HE & OKX). rewrite EX in ES.
    destruct (multiarray_sort rows (keys ++ [(-1)%Z])); [|discriminate].
    destruct (py_nth l (-1)); [|discriminate]. injection ES as <- <-. simpl. eauto.
  - destruct (remove_fock_states si lin) as [si'|] eqn:ER; simpl in H; [|discriminate]. injection H as <-.
    split; [|exact I]. simpl. destruct HI as (ops & Hor & Hk & EO).
    destruct (HR lin (or_introl eq_refl)) as [Hix Hlin].
    exists (ops ++ [lin]). split; [auto|]. split.
    + intros k Hin. rewrite concat_app in Hin. apply in_app_iff in Hin. destruct Hin as [Hin|Hin]; auto.
      simpl in Hin. rewrite app_nil_r in Hin. auto.
    + rewrite remove_many_app, EO. simpl. now rewrite ER.
Qed.

Lemma sort_run_inv : forall n indexing ops si st, 1 <= n -> removals_ok n indexing ops ->
  sort_run (si_init n indexing) ops = Some (si, st) -> sort_inv n indexing (si, st).
Proof.
  intros n indexing ops si st Hn HR. unfold sort_run.
  assert (I0 : sort_inv n indexing (sort_init (si_init n indexing))).
  { split; [|exact I]. exists []. simpl. intuition. }
  revert I0. generalize (sort_init (si_init n indexing)) as s0.
  revert HR. induction ops as [|op ops IH]; intros HR s0 I0 H.
  - simpl in H. injection H as H. now rewrite H in I0.
  - change (fold_left sort_step ops (sort_step (Some s0) op) = Some (si, st)) in H.
    destruct (sort_step (Some s0) op) as [s1|] eqn:E.
    + apply (IH (fun lin Hin => HR lin (or_intror Hin)) s1); auto.
      apply (sort_step_inv n indexing op s0); auto.
      intros lin Hin. destruct Hin as [Eq|F]; [|destruct F]. apply HR. now left.
    + exfalso. clear - H. induction ops; simpl in H; [discriminate|auto].
Qed.

(** After any history of sort_eigenstates and remove_fock_states calls, sorting by any list of property numbers orders
    the states by those properties and is a permutation; without keys the order is 0, 1, ..., nmany-1. *)
Theorem C38_sorted : forall n indexing ops si st E keys, 1 <= n -> removals_ok n indexing ops ->
  sort_run (si_init n indexing) ops = Some (si, st) ->
  length E = si_nmany si -> (forall key, In key keys -> valid_key si key) ->
  exists st', sort_eigenstates si E (Some keys) st = Some (st', Some (keys ++ [(-1)%Z])) /\
    Permutation (seq 0 (si_nmany si)) (so_order st') /\
    (forall i j a b, i < j -> nth_error (so_order st') i = Some a -> nth_error (so_order st') j = Some b ->
       before si E keys a b).
Proof.
  intros n indexing ops si st E keys Hn HR HS HE HK.
  destruct (sort_call_ext n indexing si st E keys Hn (sort_run_inv _ _ _ _ _ Hn HR HS) HE HK) as (st' & H1 & H2 & H3).
  exists st'. split; auto. split; auto. now apply strongly_nth.
Qed.
Print Assumptions C38_sorted.

Theorem C38_reset : forall si E st, exists st', sort_eigenstates si E None st = Some (st', None) /\
  so_order st' = seq 0 (si_nmany si).
Proof. intros. simpl. eauto. Qed.
Print Assumptions C38_reset.

(** Two spinful orbitals; states 5..10 have two electrons. *)
Definition ex_E : list Q := [0; 2; 1; 2; 1; 9; 7; 8; 6; 5; 9; 3; 3; 4; 4; 20]%Q.
Example C38_case : option_map (fun r => so_order (fst r))
    (sort_eigenstates (si_init 4 "ssq") ex_E (Some [1; 3; 0]%Z) (snd (sort_init (si_init 4 "ssq"))))
  = Some [0; 2; 4; 1; 3; 8; 6; 7; 9; 5; 10; 11; 12; 13; 14; 15].
Proof. vm_compute. reflexivity. Qed.
Example C38_hyps : removals_ok 4 "sz" [OpSort ex_E (Some [0; 2]%Z); OpRemove [3; 6]; OpSort (skipn 2 ex_E) (Some [0]%Z)] /\
  (exists si st, sort_run (si_init 4 "sz") [OpSort ex_E (Some [0; 2]%Z); OpRemove [3; 6]; OpSort (skipn 2 ex_E) (Some [0]%Z)]
     = Some (si, st) /\ si_nmany si = 14 /\ so_order st = [0; 2; 1; 9; 10; 11; 12; 7; 6; 4; 5; 3; 8; 13]) /\
  valid_key (si_init 4 "ssq") (-1).
Proof.
  split; [|split].
  - intros lin H. destruct H as [H|[H|[H|[]]]]; try discriminate. injection H as <-. split; [right; reflexivity|].
    intros k [<-|[<-|[]]]; vm_compute; lia.
  - destruct (sort_run (si_init 4 "sz") [OpSort ex_E (Some [0; 2]%Z); OpRemove [3; 6]; OpSort (skipn 2 ex_E) (Some [0]%Z)])
      as [[si st]|] eqn:E; [|vm_compute in E; discriminate].
    exists si, st. split; auto. vm_compute in E. injection E as <- <-. vm_compute. auto.
  - vm_compute. split; discriminate || reflexivity.
Qed.
(** using the list again, which now ends in -1, is harmless *)
Example C38_reused_list : forall keys, keys = [1; 0]%Z ->
  option_map (fun r => so_order (fst r)) (sort_eigenstates (si_init 2 "charge") [4; 3; 3; 1]%Q (Some keys) (mkSorted None []))
  = option_map (fun r => so_order (fst r))
      (sort_eigenstates (si_init 2 "charge") [4; 3; 3; 1]%Q (Some (keys ++ [(-1)%Z])) (mkSorted None [])).
Proof. intros keys ->. vm_compute. reflexivity. Qed.

(** "always a permutation" fails after remove_fock_states: the order of before stays and names states that no longer
    exist (indexing.py remove_fock_states does not touch [states_order]). *)
Theorem C38_after_removal_refuted : exists ops si st, removals_ok 2 "charge" ops /\
  sort_run (si_init 2 "charge") ops = Some (si, st) /\ ~ Permutation (seq 0 (si_nmany si)) (so_order st) /\
  In 3 (so_order st) /\ get_state si 3 = None.
Proof.
  exists [OpSort [4; 3; 2; 1]%Q (Some [0]%Z); OpRemove [3]].
  destruct (sort_run (si_init 2 "charge") [OpSort [4; 3; 2; 1]%Q (Some [0]%Z); OpRemove [3]]) as [[si st]|] eqn:E;
    [|vm_compute in E; discriminate].
  exists si, st. split; [|split; [reflexivity|]].
  - intros lin H. destruct H as [H|[H|[]]]; try discriminate. injection H as <-. split; [left; reflexivity|].
    intros k [<-|[]]; vm_compute; lia.
  - vm_compute in E. injection E as <- <-. split; [|split].
    + intros P. apply Permutation_length in P. vm_compute in P. discriminate.
    + vm_compute. auto.
    + reflexivity.
Qed.
Print Assumptions C38_after_removal_refuted.
