(** Properties C01-C06: state indexing. *)
From Coq Require Import String List Arith Lia ZArith Bool Permutation.
From Verif Require Import Base Bits Indexing IndexingProofs RemoveProofs Binom SsqProofs Qn.
Import ListNotations.
Open Scope nat_scope.
Local Notation length := List.length.

(** Specification vocabulary: an occupation list, its number of electrons and its up-minus-down count,
    written without reference to the model. *)
Fixpoint electrons (s : list bool) : nat :=
  match s with [] => 0 | b :: s' => (if b then 1 else 0) + electrons s' end.
Definition up_minus_down (s : list bool) : Z :=
  let h := Nat.div2 (length s) in
  (Z.of_nat (electrons (firstn h s)) - Z.of_nat (electrons (skipn h s)))%Z.

Lemma electrons_charge : forall s, electrons s = charge_of s.
Proof. induction s as [|b s IH]; auto. simpl. rewrite IH. unfold charge_of. simpl. destruct b; reflexivity. Qed.

Lemma umd_sz : forall n s, length s = n -> up_minus_down s = sz_of n s.
Proof.
  intros n s H. rewrite sz_of_updn by auto. unfold up_minus_down, nup, ndn.
  now rewrite !electrons_charge, H.
Qed.

(** *** C01 *)
Theorem C01_round_trip : forall n indexing, 1 <= n ->
  let si := si_init n indexing in
  (forall k, k < 2 ^ n -> exists s, get_state si k = Some s /\ length s = n /\ get_ind si s = Ind k) /\
  (forall s, length s = n -> exists k, get_ind si s = Ind k /\ k < 2 ^ n /\ get_state si k = Some s) /\
  (forall k, 2 ^ n <= k -> get_state si k = None).
Proof.
  intros n indexing Hn si. pose proof (si_init_ok n indexing) as OK. fold si in OK.
  assert (En : si_nsingle si = n) by apply init_n.
  assert (Em : si_nmany si = 2 ^ n) by (unfold si, si_init; destruct (ix_of indexing n); reflexivity).
  split; [|split].
  - intros k Hk. rewrite <- En. eapply ok_get_state; eauto; lia.
  - intros s Hs. rewrite <- Em. eapply ok_get_ind_live; eauto; try lia. 
  - intros k Hk. unfold get_state.
    rewrite (proj2 (nth_error_None _ _)); auto. rewrite <- (ok_nmany _ _ OK). lia.
Qed.
Print Assumptions C01_round_trip.

Example C01_case : get_state (si_init 4 "ssq") 9 = Some [true; false; true; false] /\
  get_ind (si_init 4 "ssq") [true; false; true; false] = Ind 9 /\
  get_state (si_init 3 "sz") 6 = Some [true; true; false].
Proof. vm_compute. auto. Qed.

(** *** C02 *)
Theorem C02_charge_blocks : forall n indexing, 1 <= n ->
  let si := si_init n indexing in
  (forall c, c <= n -> exists blk, get_lst si c None None = Some blk /\ NoDup blk /\
     (forall k, In k blk <-> exists s, get_state si k = Some s /\ electrons s = c)) /\
  Permutation (concat (map (fun c => match get_lst si c None None with Some b => b | None => [] end)
                           (seq 0 (n + 1)))) (seq 0 (2 ^ n)) /\
  (si_indexing si <> IxLin -> forall c, c <= n ->
     exists a len, get_lst si c None None = Some (seq a len)).
Proof.
  intros n indexing Hn si. pose proof (si_init_ok n indexing) as OK. fold si in OK.
  assert (En : si_nsingle si = n) by apply init_n.
  assert (Em : si_nmany si = 2 ^ n) by (unfold si, si_init; destruct (ix_of indexing n); reflexivity).
  pose proof (ok_cl_len _ _ OK) as HL. rewrite En in HL.
  assert (EL : forall c, c <= n -> get_lst si c None None = Some (nth c (si_chargelst si) [])).
  { intros c Hc. unfold get_lst. apply nth_error_of_nth. lia. }
  assert (HB : forall c k, c <= n -> (In k (nth c (si_chargelst si) []) <->
      exists s, get_state si k = Some s /\ electrons s = c)).
  { intros c k Hc. rewrite (ok_charge_block _ _ _ _ OK) by lia.
    split; intros (s & A & B); exists s; rewrite ?electrons_charge in *; auto. }
  split; [|split].
  - intros c Hc. eexists. split; [apply EL; auto|]. split; [apply (ok_cl_nodup _ _ OK)|]. auto.
  - rewrite (map_ext_in _ (fun c => nth c (si_chargelst si) [])).
    2: { intros c Hc. apply in_seq in Hc. rewrite EL by lia. auto. }
    rewrite <- HL, <- list_as_map_nth.
    apply NoDup_Permutation.
    + rewrite (list_as_map_nth _ [] (si_chargelst si)), <- flat_map_concat_map.
      apply NoDup_flat_map; [apply seq_NoDup|intros; apply (ok_cl_nodup _ _ OK)|].
      intros x y k Hx Hy H1 H2. apply in_seq in Hx, Hy. rewrite HL in *.
      apply HB in H1; [|lia]. apply HB in H2; [|lia].
      destruct H1 as (s & A & B). destruct H2 as (s' & A' & B'). congruence.
    + apply seq_NoDup.
    + intros k. rewrite in_seq. split.
      * intros H. apply in_concat in H. destruct H as (b & Hb & Hk).
        apply In_nth with (d := []) in Hb. destruct Hb as (c & Hc & <-). rewrite HL in Hc.
        apply (ok_cl_in _ _ OK) in Hk; [|lia]. rewrite <- (ok_nmany _ _ OK) in Hk. lia.
      * intros [_ Hk]. apply in_concat_nth with (k := occ_charge n (nth k (si_i si) 0)).
        assert (Hk' : k < length (si_i si)) by (rewrite <- (ok_nmany _ _ OK); lia).
        apply (ok_cl_in _ _ OK).
        { rewrite En. apply occ_charge_le. rewrite <- En. apply (ok_i_in _ _ OK). apply nth_In. auto. }
        split; [auto|now rewrite ?En].
  - intros Hix c Hc. rewrite EL by auto.
    assert (exists L, si_chargelst si = enum_chargelst L) as (L & E).
    { unfold si, si_init in *. destruct (ix_of indexing n); simpl in *; eauto. congruence. }
    rewrite E. unfold enum_chargelst. destruct (enum_from_row_seq _ L 0 c) as (a & len & ->). eauto.
Qed.
Print Assumptions C02_charge_blocks.

Example C02_case : get_lst (si_init 4 "Lin") 2 None None = Some [3; 5; 6; 9; 10; 12] /\
  get_lst (si_init 4 "charge") 2 None None = Some [5; 6; 7; 8; 9; 10] /\
  si_indexing (si_init 4 "charge") <> IxLin.
Proof. vm_compute. repeat split; auto. discriminate. Qed.

(** *** C03 *)
Theorem C03_sz_blocks : forall n indexing, 1 <= n -> Nat.even n = true ->
  (indexing = "sz" \/ indexing = "ssq")%string ->
  let si := si_init n indexing in
  (forall c sz, c <= n -> In sz (szrange c n) ->
     exists a len, get_lst si c (Some sz) None = Some (seq a len) /\
     forall k, In k (seq a len) <->
       exists s, get_state si k = Some s /\ electrons s = c /\ up_minus_down s = sz) /\
  (forall c sz, c <= n -> (In sz (szrange c n) <->
     exists s, length s = n /\ electrons s = c /\ up_minus_down s = sz)) /\
  (forall c, c <= n -> map (fun sz => sz_to_ind sz c n) (szrange c n)
       = map Z.of_nat (seq 0 (length (szrange c n)))).
Proof.
  intros n indexing Hn He Hix si.
  pose proof (si_init_ok n indexing) as OK. fold si in OK.
  assert (En : si_nsingle si = n) by apply init_n.
  assert (Hix' : ix_of indexing n = IxSz \/ ix_of indexing n = IxSsq).
  { unfold ix_of. rewrite He. destruct Hix as [-> | ->]; simpl; auto. }
  assert (SZ : sz_ok si) by (apply si_init_sz_ok; auto).
  assert (SP : forall c k, c <= n -> k < length (szrange c n) ->
     Z.to_nat (sz_to_ind (nth k (szrange c n) 0%Z) c n) = k).
  { intros. apply szrange_pos; auto. }
  split; [|split].
  - intros c sz Hc Hin. destruct SZ as (L & EL & HL & H). rewrite En in *.
    destruct (H c Hc) as [HL2 H2].
    apply In_nth with (d := 0%Z) in Hin. destruct Hin as (k & Hk & E).
    destruct (H2 k Hk) as [(a & len & HS) HM]. exists a, len. split.
    + unfold get_lst. rewrite EL. rewrite (nth_error_of_nth _ []) by lia. rewrite En.
      rewrite <- E, sz_to_ind_szrange by auto. rewrite py_nth_nat.
      rewrite (nth_error_of_nth _ []) by lia. now rewrite HS.
    + intros p. rewrite <- HS, HM. split.
      * intros (A & B & C). exists (occ n (nth p (si_i si) 0)).
        assert (Hb : nth p (si_i si) 0 < 2 ^ n)
          by (rewrite <- En; apply (ok_i_in _ _ OK); apply nth_In; auto).
        split; [rewrite get_state_occ by auto; now rewrite En|]. split.
        -- now rewrite electrons_charge.
        -- rewrite (umd_sz n) by (apply occ_length; auto). unfold occ_sz in C. congruence.
      * intros (s & A & B & C). unfold get_state in A.
        destruct (nth_error (si_i si) p) eqn:E2; [|discriminate]. simpl in A. injection A as A.
        pose proof (nth_of_nth_error (si_i si) p 0 E2) as E'.
        assert (Hp : p < length (si_i si)) by (apply nth_error_Some; congruence).
        assert (Hb : nth p (si_i si) 0 < 2 ^ n)
          by (rewrite <- En; apply (ok_i_in _ _ OK); apply nth_In; auto).
        rewrite En in A. rewrite E' in *.
        split; auto. unfold occ_charge, occ_sz, occ. rewrite A.
        rewrite electrons_charge in B. split; auto.
        rewrite <- umd_sz; [congruence|]. rewrite <- A. apply occ_length; auto.
  - intros c sz Hc. split.
    + intros Hin. pose proof (half_split n He) as Hh.
      assert (Hsz : exists u d, u <= Nat.div2 n /\ d <= Nat.div2 n /\ u + d = c /\ (Z.of_nat u - Z.of_nat d = sz)%Z).
      { apply In_nth with (d := 0%Z) in Hin. destruct Hin as (k & Hk & E).
        unfold szrange in *. rewrite range2_nth in E by auto. fold (szrange c n) in Hk.
        rewrite szrange_len in Hk by auto. rewrite smax_szmax in E by auto. unfold smax in *.
        destruct (Nat.le_ge_cases c (n - c)).
        - rewrite Nat.min_l in * by auto. exists k, (c - k). lia.
        - rewrite Nat.min_r in * by auto. exists (c - Nat.div2 n + k), (Nat.div2 n - k). lia. }
      destruct Hsz as (u & d & Hu & Hd & Hc' & Hz).
      assert (EC : forall a m, a <= m -> electrons (repeat true a ++ repeat false (m - a)) = a).
      { intros a m _. rewrite electrons_charge, charge_of_app.
        assert (forall x, charge_of (repeat true x) = x).
        { induction x; auto. unfold charge_of in *. simpl. now rewrite IHx. }
        assert (forall x, charge_of (repeat false x) = 0).
        { induction x; auto. }
        rewrite H, H0. lia. }
      exists ((repeat true u ++ repeat false (Nat.div2 n - u)) ++ (repeat true d ++ repeat false (Nat.div2 n - d))).
      set (A := repeat true u ++ repeat false (Nat.div2 n - u)).
      set (B := repeat true d ++ repeat false (Nat.div2 n - d)).
      assert (LA : length A = Nat.div2 n) by (unfold A; rewrite app_length, !repeat_length; lia).
      assert (LB : length B = Nat.div2 n) by (unfold B; rewrite app_length, !repeat_length; lia).
      split; [rewrite app_length; lia|]. split.
      * rewrite electrons_charge, charge_of_app, <- !electrons_charge. unfold A, B. rewrite !EC by auto. auto.
      * unfold up_minus_down. rewrite app_length, LA, LB, <- Hh.
        rewrite <- LA at 1. rewrite firstn_app, firstn_all, Nat.sub_diag. simpl firstn.
        rewrite app_nil_r. rewrite <- LA at 1. rewrite skipn_app, skipn_all, Nat.sub_diag. simpl.
        unfold A, B. rewrite !EC by auto. auto.
    + intros (s & Hs & A & B). rewrite electrons_charge in A. rewrite (umd_sz n) in B by auto.
      pose proof (b2i_bound s) as Hb. rewrite Hs in Hb.
      assert (Eo : occ n (binarylist_to_integer s) = s).
      { unfold occ. rewrite <- Hs. apply itb_b2i. destruct s; simpl in *; [lia|discriminate]. }
      destruct (occ_sz_in_range n _ He Hb) as (k & Hk & Ek).
      unfold occ_charge, occ_sz in *. rewrite Eo in *. rewrite A in *. rewrite B in Ek. rewrite Ek.
      now apply nth_In.
  - intros c Hc. apply list_eq_nth with (d := 0%Z).
    + now rewrite !map_length, seq_length.
    + intros k Hk. rewrite map_length in Hk.
      rewrite nth_map_lt with (d' := 0%Z) by auto.
      rewrite nth_map_lt with (d' := 0) by (now rewrite seq_length).
      rewrite sz_to_ind_szrange by auto. now rewrite seq_nth.
Qed.
Print Assumptions C03_sz_blocks.

Example C03_case : In (-1)%Z (szrange 3 6) /\
  get_lst (si_init 6 "sz") 3 (Some (-1)%Z) None = Some (seq 23 9).
Proof. vm_compute. auto. Qed.

(** *** C04 *)
Theorem C04_ssq_blocks : forall n, 1 <= n -> Nat.even n = true ->
  let si := si_init n "ssq" in
  let lst c sz ssq := match get_lst si c (Some sz) (Some ssq) with Some l => l | None => [] end in
  (forall c sz ssq, c <= n -> In sz (szrange c n) -> In ssq (ssqrange c sz n) ->
     exists l, get_lst si c (Some sz) (Some ssq) = Some l) /\
  flat_map (fun c => flat_map (fun sz => flat_map (lst c sz) (ssqrange c sz n)) (szrange c n)) (seq 0 (n + 1))
    = seq 0 (2 ^ n) /\
  (forall c sz, c <= n -> In sz (szrange c n) ->
     get_lst si c (Some sz) None = Some (flat_map (lst c sz) (ssqrange c sz n))) /\
  (forall c sz sz' ssq, c <= n -> In sz (szrange c n) -> In sz' (szrange c n) ->
     In ssq (ssqrange c sz n) -> In ssq (ssqrange c sz' n) ->
     length (lst c sz ssq) = length (lst c sz' ssq)).
Proof.
  intros n Hn He si lst.
  assert (Hix : ix_of "ssq" n = IxSsq) by (unfold ix_of; simpl; now rewrite He).
  set (T := construct_ssqlst (enum_szlst (construct_szlst n)) n).
  assert (En : si_nsingle si = n) by apply init_n.
  assert (Esz : si_szlst si = Some (enum_szlst (construct_szlst n))).
  { unfold si, si_init. rewrite Hix. reflexivity. }
  assert (Essq : si_ssqlst si = Some T).
  { unfold si, si_init. rewrite Hix. reflexivity. }
  assert (LT : length T = n + 1).
  { unfold T. rewrite construct_ssqlst_enum by auto.
    assert (G : forall Q i, length (enum_tabs i Q) = length Q) by (induction Q; simpl; auto).
    rewrite G. unfold ssq_counts. now rewrite map_length, seq_length. }
  assert (LR : forall c, c <= n -> length (nth c T []) = length (szrange c n)).
  { intros c Hc. rewrite szrange_len by auto. unfold T. rewrite construct_ssqlst_enum by auto.
    destruct (enum_tabs_nth (ssq_counts n) 0 c) as (s & ->).
    { unfold ssq_counts. rewrite map_length, seq_length. lia. }
    assert (G : forall Q i, length (enum_rows i Q) = length Q) by (induction Q; simpl; auto).
    rewrite G. unfold ssq_counts. rewrite nth_map_seq by lia. now rewrite map_length, seq_length. }
  assert (LC : forall c k, c <= n -> k < length (szrange c n) ->
     length (nth k (nth c T []) []) = length (ssqrange c (nth k (szrange c n) 0%Z) n)).
  { intros c k Hc Hk. unfold T. rewrite construct_ssqlst_enum by auto.
    rewrite szrange_len in Hk by auto.
    destruct (enum_tabs_nth (ssq_counts n) 0 c) as (s & E1).
    { unfold ssq_counts. rewrite map_length, seq_length. lia. }
    rewrite E1. unfold ssq_counts. rewrite nth_map_seq by lia.
    destruct (enum_rows_nth (map (fun k => cell_counts n c k) (seq 0 (S (smax n c)))) s k) as (s' & E2).
    { rewrite map_length, seq_length. lia. }
    rewrite E2, nth_map_seq, enum_counts_length by lia.
    destruct (ssqrange_facts n c k) as [HL _]; [auto|lia|]. rewrite HL.
    unfold cell_counts. now rewrite map_length, seq_length. }
  assert (GL : forall c k t, c <= n -> k < length (szrange c n) ->
     t < length (ssqrange c (nth k (szrange c n) 0%Z) n) ->
     get_lst si c (Some (nth k (szrange c n) 0%Z))
                  (Some (nth t (ssqrange c (nth k (szrange c n) 0%Z) n) 0%Z))
     = Some (nth t (nth k (nth c T []) []) [])).
  { intros c k t Hc Hk Ht. unfold get_lst. rewrite Esz, Essq, En.
    rewrite (nth_error_of_nth _ []) by lia. rewrite sz_to_ind_szrange, py_nth_nat by auto.
    rewrite (nth_error_of_nth _ []) by (rewrite LR; auto).
    pose proof Hk as Hk'. rewrite szrange_len in Hk' by auto.
    destruct (ssqrange_facts n c k) as [HL HI]; [auto|lia|].
    destruct (HI t) as [E _]; [lia|]. rewrite E, py_nth_nat.
    apply nth_error_of_nth. rewrite LC; auto. }
  assert (FM : forall c k, c <= n -> k < length (szrange c n) ->
     flat_map (lst c (nth k (szrange c n) 0%Z)) (ssqrange c (nth k (szrange c n) 0%Z) n)
     = concat (nth k (nth c T []) [])).
  { intros c k Hc Hk. rewrite flat_map_concat_map. f_equal.
    apply list_eq_nth with (d := []).
    - rewrite map_length. now rewrite LC.
    - intros t Ht. rewrite map_length in Ht. rewrite nth_map_lt with (d' := 0%Z) by auto.
      unfold lst. now rewrite GL. }
  assert (FM2 : forall c, c <= n ->
     flat_map (fun sz => flat_map (lst c sz) (ssqrange c sz n)) (szrange c n)
     = concat (concat (nth c T []))).
  { intros c Hc. rewrite flat_map_concat_map, concat_concat. f_equal.
    apply list_eq_nth with (d := []).
    - rewrite !map_length. now rewrite LR.
    - intros k Hk. rewrite map_length in Hk. rewrite nth_map_lt with (d' := 0%Z) by auto.
      rewrite nth_map_lt with (d' := []) by (rewrite LR; auto). now apply FM. }
  split; [|split; [|split]].
  - intros c sz ssq Hc Hs Hq. apply In_nth with (d := 0%Z) in Hs. destruct Hs as (k & Hk & <-).
    apply In_nth with (d := 0%Z) in Hq. destruct Hq as (t & Ht & <-). eauto.
  - rewrite <- (ssqlst_enumerates n He Hn). fold T.
    rewrite flat_map_concat_map.
    rewrite (map_ext_in _ (fun c => concat (concat (nth c T [])))).
    + rewrite <- LT, <- (map_map (fun c => nth c T []) (fun X => concat (concat X))), <- list_as_map_nth.
      clear. induction T; simpl; auto. now rewrite !concat_app, IHT.
    + intros c Hc. apply in_seq in Hc. apply FM2. lia.
  - intros c sz Hc Hs. apply In_nth with (d := 0%Z) in Hs. destruct Hs as (k & Hk & <-).
    rewrite FM by auto. unfold get_lst. rewrite Esz, En.
    pose proof (ssqlst_refines_szlst n He Hn) as R. fold T in R. rewrite <- R.
    rewrite (nth_error_of_nth _ []) by (rewrite map_length; lia).
    rewrite sz_to_ind_szrange, py_nth_nat by auto.
    rewrite (nth_map_lt _ _ _ _ _ _ []) by lia.
    rewrite (nth_error_of_nth _ []) by (rewrite map_length, LR; auto).
    f_equal. apply nth_map_lt. rewrite LR; auto.
  - intros c sz sz' ssq Hc Hs Hs' Hq Hq'.
    apply In_nth with (d := 0%Z) in Hs, Hs'.
    destruct Hs as (k & Hk & <-). destruct Hs' as (k' & Hk' & <-).
    apply In_nth with (d := 0%Z) in Hq, Hq'.
    destruct Hq as (t & Ht & E). destruct Hq' as (t' & Ht' & E').
    unfold lst. rewrite <- E at 1. rewrite <- E'. rewrite !GL by auto.
    rewrite szrange_len in Hk, Hk' by auto.
    destruct (ssqrange_facts n c k) as [HL HI]; [auto|lia|].
    destruct (ssqrange_facts n c k') as [HL' HI']; [auto|lia|].
    destruct (HI t) as [_ E1]; [lia|]. destruct (HI' t') as [_ E1']; [lia|].
    rewrite E in E1. rewrite E' in E1'.
    unfold T. rewrite !ssq_cell_size by (auto; lia). f_equal. f_equal.
    destruct (smax_qmax n c) as (p & Hp & Ep). lia.
Qed.
Print Assumptions C04_ssq_blocks.

Example C04_case : get_lst (si_init 6 "ssq") 3 (Some (-1)%Z) (Some 1%Z) = Some (seq 23 8) /\
  get_lst (si_init 6 "ssq") 3 (Some 1%Z) (Some 1%Z) = Some (seq 32 8) /\
  get_lst (si_init 6 "ssq") 3 (Some (-1)%Z) (Some 3%Z) = Some [31].
Proof. vm_compute. auto. Qed.

(** *** C05 *)
Theorem C05_quantum_numbers : forall n indexing, 1 <= n ->
  let si := si_init n indexing in
  (forall q k, qn_ind si q = Some k <-> ind_qn si k = Some q) /\
  (forall k, (exists q, ind_qn si k = Some q) <-> k < 2 ^ n) /\
  (forall q k, ind_qn si k = Some q ->
     exists s, get_state si k = Some s /\ nth 0 q 0%Z = Z.of_nat (electrons s) /\
       (si_indexing si = IxSz \/ si_indexing si = IxSsq -> nth 1 q 0%Z = up_minus_down s)).
Proof.
  intros n indexing Hn si. destruct (qn_init n indexing Hn) as [[A B] C]. fold si in A, B, C.
  split; [exact A|]. split; [exact B|].
  intros q k H. pose proof H as H0. apply A in H. destruct (C q k H) as (s & E & F & G).
  exists s. split; auto. rewrite electrons_charge. split; auto.
  intros HX. rewrite (G HX). symmetry. apply umd_sz.
  assert (Hk : k < 2 ^ n) by (apply B; eauto).
  destruct (proj1 (C01_round_trip n indexing Hn) k Hk) as (s' & E' & L & _).
  fold si in E'. rewrite E in E'. injection E' as <-. rewrite L. unfold si. now rewrite init_n.
Qed.
Print Assumptions C05_quantum_numbers.

(** Also after any history of removals for 'charge' and 'sz'. *)
Theorem C05_quantum_numbers_history : forall n indexing ops,
  (ix_of indexing n = IxCharge \/ ix_of indexing n = IxSz) ->
  (forall k, In k (concat ops) -> k < 2 ^ n) ->
  exists si, remove_many (si_init n indexing) ops = Some si /\
    (forall q k, qn_ind si q = Some k <-> ind_qn si k = Some q) /\
    (forall k, (exists q, ind_qn si k = Some q) <-> k < si_nmany si) /\
    (forall q k, ind_qn si k = Some q ->
       exists s, get_state si k = Some s /\ nth 0 q 0%Z = Z.of_nat (electrons s)).
Proof.
  intros n indexing ops Hix Hk. destruct (qn_history n indexing ops Hix Hk) as (si & E & [A B] & C).
  exists si. split; auto. split; [exact A|]. split; [exact B|].
  intros q k H. apply A in H. destruct (C q k H) as (s & E1 & E2 & _).
  exists s. rewrite electrons_charge. auto.
Qed.
Print Assumptions C05_quantum_numbers_history.

Example C05_case : ind_qn (si_init 4 "ssq") 9 = Some [2; 0; 2; 0]%Z /\
  qn_ind (si_init 4 "ssq") [2; 0; 2; 0]%Z = Some 9.
Proof. vm_compute. auto. Qed.
Example C05_history_case : exists si, remove_many (si_init 4 "sz") [[3]; [5; 0]] = Some si /\
  ind_qn si 4 = Some [2; 0; 0]%Z /\ get_state si 4 = Some [false; true; true; false].
Proof. eexists. split; [vm_compute; reflexivity|]. vm_compute. auto. Qed.

(** *** C06 *)
(** What the property asks of the indexing after the states in [removed] have been removed. *)
Definition removal_correct (n : nat) (removed : list nat) (si : SI) : Prop :=
  (forall s, length s = n -> In (binarylist_to_integer s) removed -> get_ind si s = IndNone) /\
  (forall s, length s = n -> ~ In (binarylist_to_integer s) removed ->
     exists k, get_ind si s = Ind k /\ k < si_nmany si /\ get_state si k = Some s) /\
  (forall k, k < si_nmany si -> exists s, get_state si k = Some s /\ length s = n /\
     ~ In (binarylist_to_integer s) removed /\ get_ind si s = Ind k) /\
  si_nmany si = length (filter (fun x => negb (existsb (Nat.eqb x) removed)) (seq 0 (2 ^ n))) /\
  (forall c, c <= n -> exists blk, get_lst si c None None = Some blk /\ NoDup blk /\
     forall k, In k blk <-> k < si_nmany si /\ exists s, get_state si k = Some s /\ electrons s = c).

Lemma existsb_in : forall x l, existsb (Nat.eqb x) l = true <-> In x l.
Proof.
  intros. rewrite existsb_exists. split.
  - intros (y & H & E). apply Nat.eqb_eq in E. now subst.
  - intros H. exists x. split; auto. apply Nat.eqb_refl.
Qed.

Lemma removal_of_ok : forall n removed si, 1 <= n -> si_nsingle si = n -> si_ok si (not_removed removed) ->
  removal_correct n removed si.
Proof.
  intros n removed si Hn En OK.
  assert (NR : forall x, not_removed removed x = true <-> ~ In x removed).
  { intros x. unfold not_removed. rewrite negb_true_iff, <- not_true_iff_false, existsb_in. tauto. }
  split; [|split; [|split; [|split]]].
  - intros s Hs Hin. eapply ok_get_ind_dead; eauto; [lia|].
    unfold not_removed. now rewrite (proj2 (existsb_in _ _) Hin).
  - intros s Hs Hin. eapply ok_get_ind_live; eauto; try lia. now apply NR.
  - intros k Hk. destruct (ok_get_state si _ k OK) as (s & A & B & C); [lia|auto|].
    exists s. split; auto. split; [lia|]. split; auto.
    intros Hin. assert (get_ind si s = IndNone).
    { eapply ok_get_ind_dead; eauto. unfold not_removed. now rewrite (proj2 (existsb_in _ _) Hin). }
    congruence.
  - rewrite (ok_nmany _ _ OK). apply Permutation_length. apply NoDup_Permutation.
    + apply (ok_i_nodup _ _ OK).
    + apply filter_NoDup, seq_NoDup.
    + intros x. rewrite (ok_i_in _ _ OK), filter_In, in_seq, En. unfold not_removed. intuition lia.
  - intros c Hc. exists (nth c (si_chargelst si) []). split.
    + unfold get_lst. apply nth_error_of_nth. rewrite (ok_cl_len _ _ OK). lia.
    + split; [apply (ok_cl_nodup _ _ OK)|]. intros k.
      rewrite (ok_charge_block _ _ _ _ OK) by lia. split.
      * intros (s & A & B). split.
        -- rewrite (ok_nmany _ _ OK). unfold get_state in A.
           destruct (nth_error (si_i si) k) eqn:E; [|discriminate]. apply nth_error_Some. congruence.
        -- exists s. rewrite electrons_charge. auto.
      * intros (_ & s & A & B). exists s. rewrite electrons_charge in B. auto.
Qed.

(** 'charge' and 'sz' (even nsingle): every history of calls. *)
Theorem C06_remove_history : forall n indexing ops, 1 <= n ->
  (ix_of indexing n = IxCharge \/ ix_of indexing n = IxSz) ->
  (forall k, In k (concat ops) -> k < 2 ^ n) ->
  exists si, remove_many (si_init n indexing) ops = Some si /\ removal_correct n (concat ops) si.
Proof.
  intros n indexing ops Hn Hix Hk.
  destruct (remove_history_ok n indexing ops Hix Hk) as (si & E & En & _ & OK & _).
  exists si. split; auto. apply removal_of_ok; auto.
Qed.
Print Assumptions C06_remove_history.

(** 'Lin': a single call. *)
Theorem C06_remove_lin_once_partial : forall n indexing lin, 1 <= n -> ix_of indexing n = IxLin ->
  (forall k, In k lin -> k < 2 ^ n) ->
  exists si, remove_fock_states (si_init n indexing) lin = Some si /\ removal_correct n lin si.
Proof.
  intros n indexing lin Hn Hix Hk.
  destruct (remove_lin_once_ok n indexing lin Hix Hk) as (si & E & En & OK).
  exists si. split; auto. apply removal_of_ok; auto.
Qed.
Print Assumptions C06_remove_lin_once_partial.

(** 'Lin': two calls break the indexing (the full statement is false). *)
Theorem C06_remove_lin_twice_refuted :
  exists n ops si, ix_of "Lin" n = IxLin /\ (forall k, In k (concat ops) -> k < 2 ^ n) /\
    remove_many (si_init n "Lin") ops = Some si /\
    (exists s k, length s = n /\ ~ In (binarylist_to_integer s) (concat ops) /\
      get_ind si s = Ind k /\ si_nmany si <= k /\ get_state si k = None) /\
    (exists c k blk s, get_lst si c None None = Some blk /\ In k blk /\
      get_state si k = Some s /\ electrons s <> c).
Proof.
  exists 2, [[0]; [1]].
  destruct (remove_many (si_init 2 "Lin") [[0]; [1]]) as [si|] eqn:E; [|vm_compute in E; discriminate].
  exists si. split; [reflexivity|]. split.
  { simpl. intros k [<-|[<-|[]]]; lia. }
  split; auto. split.
  - exists [true; true], 2. split; auto. split.
    + simpl. intros [H|[H|[]]]; vm_compute in H; discriminate.
    + vm_compute in E. injection E as <-. vm_compute. auto.
  - exists 2, 0, [0], [true; false]. vm_compute in E. injection E as <-. vm_compute.
    repeat split; auto. discriminate.
Qed.
Print Assumptions C06_remove_lin_twice_refuted.

Example C06_case : exists si, remove_many (si_init 4 "sz") [[3; 5]; [5; 0]] = Some si /\
  si_nmany si = 13 /\ get_ind si [false; true; false; true] = IndNone /\
  get_ind si [false; true; true; false] = Ind 4.
Proof. eexists. split; [vm_compute; reflexivity|]. vm_compute. auto. Qed.
