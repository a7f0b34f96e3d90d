(** Property C48: the numbering of density-matrix elements with 'ssq' indexing. *)
From Coq Require Import String List Arith Lia ZArith Bool Permutation.
From Verif Require Import Base Bits Indexing IndexingProofs RemoveProofs Binom SsqProofs Qn
  PropIndexing DMIndex DMIndexProofs DMReach PropDMIndex SsqNumbering.
Import ListNotations.
Open Scope nat_scope.
Local Notation length := List.length.

(** Vocabulary, in terms of the quantum numbers of C05.  [shows si k c sz s al]: state k has charge
    c, twice the spin projection sz, twice the total spin s and is member of the al-th multiplet. *)
Definition shows (si : SI) (k c : nat) (sz s al : Z) : Prop := ind_qn si k = Some [Z.of_nat c; sz; s; al].
(** states of one multiplet *)
Definition partners (si : SI) (b b' : nat) : Prop :=
  exists c sz sz' s al, shows si b c sz s al /\ shows si b' c sz' s al.
(** the state of a multiplet with the lowest projection *)
Definition bottom (si : SI) (b : nat) : Prop := exists c s al, shows si b c (- s) s al.
(** states of equal charge, projection and total spin *)
Definition same_spin (si : SI) (b bp : nat) : Prop :=
  exists c sz s al al', shows si b c sz s al /\ shows si bp c sz s al'.
(** the caller selected whole multiplets *)
Definition whole_multiplets (si : SI) (dm : DMI) : Prop :=
  forall c b b', In b (considered dm c) -> partners si b b' -> In b' (considered dm c).

(** ** the multiplets are complete *)
Lemma range2_in : forall lo hi x, In x (range2 lo hi) <-> exists k, (0 <= k)%Z /\ x = (lo + 2 * k)%Z /\ (x < hi)%Z.
Proof.
  intros lo hi x. unfold range2. rewrite in_map_iff. split.
  - intros (k & <- & Hk). apply in_seq in Hk. exists (Z.of_nat k). split; [lia|]. split; auto.
    assert (Z.of_nat k < (hi - lo + 1) / 2)%Z by lia. pose proof (Z.mul_div_le (hi - lo + 1) 2). lia.
  - intros (k & Hk & -> & Hlt). exists (Z.to_nat k). split; [lia|]. apply in_seq. split; [lia|].
    assert (k < (hi - lo + 1) / 2)%Z; [|lia]. pose proof (Z.div_le_lower_bound (hi - lo + 1) 2 (k + 1)). lia.
Qed.
Lemma cells_total : forall X (cells : list X) pre blk m, cells_ok cells pre blk m ->
  let ps := flat_map (fun x => block_pairs (pre x) (blk x)) cells in
  forall x a, In x cells -> a < length (blk x) ->
  dict_get list_Z_eqb (pre x ++ [Z.of_nat a]) (dict_build _ _ list_Z_eqb ps) = Some (nth a (blk x) 0).
Proof.
  intros X cells pre blk m CO ps x a Hx Ha. destruct (cells_inverse X cells pre blk m CO) as [[I1 I2] I3]. fold ps in I1, I2, I3.
  assert (Hk : nth a (blk x) 0 < m) by (apply (co_cover _ _ _ _ CO); exists x; split; auto; apply nth_In; auto).
  apply I2 in Hk. destruct Hk as (q & Hq). apply I1 in Hq. pose proof (I3 _ _ Hq) as (x' & a' & Hx' & Ha' & E & Ek).
  assert (x = x').
  { apply (co_disj _ _ _ _ CO) with (k := nth a (blk x) 0); auto; [apply nth_In; auto|]. rewrite Ek. apply nth_In; auto. }
  subst x'. assert (a = a').
  { apply (proj1 (NoDup_nth (blk x) 0) (co_blk _ _ _ _ CO x Hx)); auto. }
  subst a'. now rewrite <- E.
Qed.

(** range of the numbers of a constructed indexing *)
Lemma ssq_numbers : forall n k q, 1 <= n -> Nat.even n = true -> ind_qn (si_init n "ssq") k = Some q ->
  exists c sz s al, q = [Z.of_nat c; sz; s; al] /\ c <= n /\ In sz (projections s) /\
    forall sz', In sz' (projections s) -> exists k', qn_ind (si_init n "ssq") [Z.of_nat c; sz'; s; al] = Some k'.
Proof.
  intros n k q Hn He H. assert (Hix : ix_of "ssq" n = IxSsq) by (unfold ix_of; simpl; now rewrite He).
  set (si := si_init n "ssq") in *. pose proof (si_init_ok n "ssq") as OK. fold si in OK.
  assert (SZ : sz_ok si) by (apply si_init_sz_ok; auto).
  assert (En : si_nsingle si = n) by apply init_n.
  assert (Hnc : si_ncharge si = si_nsingle si + 1) by (unfold si, si_init; rewrite Hix; reflexivity).
  assert (Esz : si_szlst si = Some (enum_szlst (construct_szlst n))) by (unfold si, si_init; rewrite Hix; reflexivity).
  set (T := construct_ssqlst (enum_szlst (construct_szlst n)) n).
  assert (Essq : si_ssqlst si = Some T) by (unfold si, si_init; rewrite Hix; reflexivity).
  assert (Eix : si_indexing si = IxSsq) by (unfold si; rewrite init_ix; auto).
  pose proof (ssqcells_ok si all_live OK Hnc) as CO. rewrite En in CO. specialize (CO He SZ). rewrite Esz, Essq in CO.
  specialize (CO (ssqlst_refines_szlst n He Hn)).
  assert (SH : forall c k, c <= n -> k < length (szrange c n) -> length (nth k (nth c T []) []) = length (ssqrange c (nth k (szrange c n) 0%Z) n)).
  { intros c j Hc Hj. unfold T. rewrite construct_ssqlst_enum by auto. rewrite szrange_len in Hj by auto.
    destruct (enum_tabs_nth (ssq_counts n) 0 c) as (s & E1).
    { unfold ssq_counts. rewrite map_length, seq_length. lia. }
    rewrite E1. unfold ssq_counts. rewrite nth_map_seq by lia.
    destruct (enum_rows_nth (map (fun k => cell_counts n c k) (seq 0 (S (smax n c)))) s j) as (s' & E2).
    { rewrite map_length, seq_length. lia. }
    rewrite E2, nth_map_seq, enum_counts_length by lia.
    destruct (ssqrange_facts n c j) as [HL _]; [auto|lia|]. rewrite HL. unfold cell_counts. now rewrite map_length, seq_length. }
  specialize (CO SH). pose proof (cells_inverse _ _ _ _ _ CO) as [H1 H2].
  assert (E : flat_map (fun x => block_pairs [Z.of_nat (fst (fst x)); snd (fst x); snd x] (ssq_blk si x)) (ssq_cells si) = qn_pairs si).
  { unfold qn_pairs. rewrite Eix. unfold ssq_cells, sz_cells. rewrite !flat_map_flat_map.
    apply flat_map_ext. intros c. rewrite flat_map_map. apply flat_map_ext. intros sz. rewrite flat_map_map. reflexivity. }
  assert (H3 : forall c z s a, In (c, z, s) (ssq_cells si) -> a < length (ssq_blk si (c, z, s)) ->
     qn_ind si [Z.of_nat c; z; s; Z.of_nat a] = Some (nth a (ssq_blk si (c, z, s)) 0)).
  { intros c z s a Hx Ha. unfold qn_ind, make_quantum_numbers. rewrite <- E. exact (cells_total _ _ _ _ _ CO (c, z, s) a Hx Ha). }
  rewrite E in H1, H2. destruct H1 as [I1 _]. apply I1 in H. apply H2 in H. destruct H as ([[c sz] s] & a & Hx & Ha & -> & ->).
  apply ssq_cells_in in Hx. destruct Hx as [Hx Hs]. apply sz_cells_in in Hx. rewrite Hnc, En in Hx. destruct Hx as [Hc Hsz]. cbn [fst snd] in Hs. rewrite En in Hs.
  exists c, sz, s, (Z.of_nat a). split; [reflexivity|]. split; [lia|].
  unfold szrange in Hsz. unfold ssqrange in Hs. rewrite range2_in in Hsz, Hs. destruct Hsz as (i & Hi & Ei & Li). destruct Hs as (t & Ht & Et & Lt).
  split; [apply range2_in; destruct (Z.abs_spec sz) as [[? ?]|[? ?]]; [exists (sz + t)%Z|exists t]; lia|].
  intros sz' Hsz'. apply range2_in in Hsz'. destruct Hsz' as (i' & Hi' & Ei' & Li').
  assert (Hz' : In sz' (szrange c n)).
  { apply range2_in. destruct (Z.abs_spec sz) as [[? ?]|[? ?]]; [exists (szmax c n - i - t + i')%Z|exists (i' + i - t)%Z]; lia. }
  assert (Hq' : In s (ssqrange c sz' n)).
  { apply range2_in. destruct (Z.abs_spec sz') as [[? ?]|[? ?]]; [exists (s - i')%Z|exists i']; lia. }
  assert (Hz : In sz (szrange c n)) by (apply range2_in; eauto).
  assert (Hq : In s (ssqrange c sz n)) by (apply range2_in; eauto).
  assert (HL : length (ssq_blk si (c, sz', s)) = length (ssq_blk si (c, sz, s))).
  { pose proof (C04_ssq_blocks n Hn He) as (B1 & _ & _ & B4). fold si in B1, B4.
    assert (GB : forall z, In z (szrange c n) -> In s (ssqrange c z n) -> get_lst si c (Some z) (Some s) = Some (ssq_blk si (c, z, s))).
    { intros z Hz1 Hs1. unfold ssq_blk. cbn [fst snd]. rewrite Essq, En. unfold get_lst. rewrite Esz, Essq, En.
      assert (LT : length T = n + 1).
      { unfold T. rewrite construct_ssqlst_enum by auto.
        assert (G : forall Q i, length (enum_tabs i Q) = length Q) by (induction Q; simpl; auto).
        rewrite G. unfold ssq_counts. now rewrite map_length, seq_length. }
      assert (LR : length (nth c T []) = length (szrange c n)).
      { rewrite szrange_len by lia. unfold T. rewrite construct_ssqlst_enum by auto.
        destruct (enum_tabs_nth (ssq_counts n) 0 c) as (s0 & ->).
        { unfold ssq_counts. rewrite map_length, seq_length. lia. }
        assert (G : forall Q i, length (enum_rows i Q) = length Q) by (induction Q; simpl; auto).
        rewrite G. unfold ssq_counts. rewrite nth_map_seq by lia. now rewrite map_length, seq_length. }
      apply In_nth with (d := 0%Z) in Hz1. destruct Hz1 as (p & Hp & <-). apply In_nth with (d := 0%Z) in Hs1. destruct Hs1 as (r & Hr & Er). rewrite <- Er.
      rewrite (nth_error_of_nth _ []) by lia. rewrite sz_to_ind_szrange, py_nth_nat by (auto; lia). rewrite (nth_error_of_nth _ []) by lia.
      pose proof Hp as Hp'. rewrite szrange_len in Hp' by lia. destruct (ssqrange_facts n c p) as [HLf HI]; [lia|lia|]. destruct (HI r) as [Ef _]; [lia|].
      rewrite Ef, py_nth_nat, !Nat2Z.id. apply nth_error_of_nth. rewrite SH; auto; lia. }
    specialize (B4 c sz' sz s ltac:(lia) Hz' Hz Hq' Hq). rewrite (GB sz' Hz' Hq'), (GB sz Hz Hq) in B4. exact B4. }
  eexists. apply H3; [|rewrite HL; exact Ha]. apply ssq_cells_in. cbn [fst snd].
  split; [apply sz_cells_in; rewrite Hnc, En; split; auto; lia|rewrite En; auto].
Qed.

(** ** reachable objects *)
Section Reach.
Variables (kd : kind) (n : nat).
Hypothesis Hn : 1 <= n.
Hypothesis He : Nat.even n = true.
Let si0 := si_init n "ssq".
Lemma ssq_ix : ix_of "ssq" n = IxSsq.
Proof. unfold ix_of. simpl. now rewrite He. Qed.
Lemma si0_ix : si_indexing si0 = IxSsq.
Proof. unfold si0. rewrite init_ix. apply ssq_ix. Qed.
Lemma ssq_pairs_with : forall cl, qn_pairs (with_chargelst si0 cl) = qn_pairs si0.
Proof. intros cl. unfold qn_pairs. cbn [with_chargelst si_nsingle si_indexing si_ssqlst si_ncharge]. rewrite si0_ix. reflexivity. Qed.
Lemma ssq_ind_with : forall cl, ind_qn (with_chargelst si0 cl) = ind_qn si0.
Proof. intros cl. unfold ind_qn, make_quantum_numbers. now rewrite ssq_pairs_with. Qed.
Lemma ssq_qn_with : forall cl, qn_ind (with_chargelst si0 cl) = qn_ind si0.
Proof. intros cl. unfold qn_ind, make_quantum_numbers. now rewrite ssq_pairs_with. Qed.

Record reached_ssq (si : SI) (dm : DMI) : Prop := {
  rs_si : exists cl, si = with_chargelst si0 cl;
  rs_dm : exists d0 lst, dm = set_statesdm' kd IxSsq (ind_qn si0) (qn_ind si0) (n + 1) d0 (lst ++ [[]]) /\
    length d0 = 2 ^ n /\ selection si lst /\ states_ok (n + 1) (2 ^ n) (lst ++ [[]])
}.
Lemma use_all_ssq : forall cl d0 si' dm', good n "ssq" (with_chargelst si0 cl) -> length d0 = 2 ^ n ->
  call_use_all kd d0 (with_chargelst si0 cl) = (si', dm') -> reached_ssq si' dm'.
Proof.
  intros cl d0 si' dm' G L E. unfold call_use_all, set_statesdm in E. injection E as <- <-.
  assert (SEL := chargelst_selection _ _ _ G). constructor.
  - eexists. reflexivity.
  - exists d0, cl. cbn [with_chargelst si_indexing si_ncharge si_chargelst]. rewrite si0_ix. rewrite ssq_ind_with, ssq_qn_with.
    assert (EN : si_ncharge si0 = n + 1) by apply init_nc. rewrite EN. split; [reflexivity|]. split; auto. split; [exact SEL|]. eapply selection_ok; eauto.
Qed.
Lemma reach_ssq : forall si dm, reach kd n "ssq" si dm -> reached_ssq si dm.
Proof.
  intros si dm R. induction R as [si dm E|si dm si' dm' R IH E|si dm lst si' dm' R IH SEL E|si dm lin si' dm' R IH Hix Hlin E].
  - unfold call_init in E. rewrite <- (with_same (si_init n "ssq")) in E at 2. eapply use_all_ssq; [|rewrite repeat_length; apply init_nmany|exact E].
    rewrite with_same. apply good_init. auto.
  - pose proof (reach_reached _ _ _ _ _ Hn R) as RR. destruct (rs_si _ _ IH) as (cl & ->).
    eapply use_all_ssq; [exact (rc_good _ _ _ _ _ RR)| |exact E]. eapply reached_dict; eauto.
  - pose proof (reach_reached _ _ _ _ _ Hn R) as RR. pose proof (rc_good _ _ _ _ _ RR) as G. unfold call_set, set_statesdm in E. injection E as <- <-.
    constructor; [exact (rs_si _ _ IH)|]. exists (dm_dictdm dm), lst. destruct (rs_si _ _ IH) as (cl & Es).
    rewrite (g_ix _ _ _ G), (g_nc _ _ _ G), ssq_ix. rewrite Es at 1 2. rewrite ssq_ind_with, ssq_qn_with. cbn [snd].
    split; [reflexivity|]. split; [eapply reached_dict; eauto|]. split; auto. eapply selection_ok; eauto.
  - exfalso. rewrite ssq_ix in Hix. destruct Hix; discriminate.
Qed.

(** what the abstract numbering needs *)
Variables (si : SI) (dm : DMI).
Hypothesis R : reach kd n "ssq" si dm.
Hypothesis W : whole_multiplets si dm.
Let qn := ind_qn si0.
Let qi := qn_ind si0.
Lemma setup : exists d0 L, dm = set_statesdm' kd IxSsq qn qi (n + 1) d0 L /\ states_ok (n + 1) (length d0) L /\
  (forall c, considered dm c = nth c L []) /\
  (forall k, ind_qn si k = qn k) /\
  (forall q k, qi q = Some k <-> qn k = Some q) /\
  (forall c k, In k (nth c L []) -> exists sz s al, qn k = Some [Z.of_nat c; sz; s; al] /\ In sz (projections s)) /\
  (forall c k sz s al sz', In k (nth c L []) -> qn k = Some [Z.of_nat c; sz; s; al] -> In sz' (projections s) ->
     exists k', qn k' = Some [Z.of_nat c; sz'; s; al] /\ In k' (nth c L [])).
Proof.
  pose proof (reach_ssq si dm R) as RS. pose proof (considered_charge _ _ _ _ _ Hn R) as CC. destruct (rs_si _ _ RS) as (cl & Es). destruct (rs_dm _ _ RS) as (d0 & lst & E & L0 & SEL & SO).
  exists d0, (lst ++ [[]]). split; [exact E|]. rewrite L0. split; [exact SO|].
  assert (EC : forall c, considered dm c = nth c (lst ++ [[]]) []).
  { intros c. unfold considered. rewrite E. destruct (dm_fields kd IxSsq (ind_qn si0) (qn_ind si0) (n + 1) d0 (lst ++ [[]])) as (_ & _ & F3 & _). now rewrite F3. }
  split; [exact EC|]. assert (EQ : forall k, ind_qn si k = qn k) by (intros k; rewrite Es; now rewrite ssq_ind_with).
  split; [exact EQ|]. destruct (C05_quantum_numbers n "ssq" Hn) as (Q1 & Q2 & Q3). fold si0 in Q1, Q2, Q3. split; [exact Q1|].
  assert (ST : forall c k, In k (nth c (lst ++ [[]]) []) -> exists sz s al, qn k = Some [Z.of_nat c; sz; s; al] /\ In sz (projections s) /\
     forall sz', In sz' (projections s) -> exists k', qi [Z.of_nat c; sz'; s; al] = Some k').
  { intros c k Hk. rewrite <- EC in Hk. destruct (CC c k Hk) as (Hc & st & Es1 & Ec).
    assert (Es0 : get_state si0 k = Some st) by (rewrite Es in Es1; exact Es1).
    assert (Hlt : k < 2 ^ n).
    { assert (EI : length (si_i si0) = 2 ^ n) by (unfold si0; rewrite <- (ok_nmany _ _ (si_init_ok n "ssq")); apply init_nmany).
      rewrite <- EI. unfold get_state in Es0. apply nth_error_Some. intros X. rewrite X in Es0. discriminate. }
    apply Q2 in Hlt. destruct Hlt as (q & Hq). destruct (ssq_numbers n k q Hn He Hq) as (c' & sz & s & al & -> & _ & P & CO).
    destruct (Q3 _ _ Hq) as (st' & Es2 & Ec' & _). assert (st' = st) by congruence. subst st'. cbn [nth] in Ec'.
    assert (c' = c) by lia. subst c'. exists sz, s, al. split; auto. }
  split.
  - intros c k Hk. destruct (ST c k Hk) as (sz & s & al & A & B & _). eauto.
  - intros c k sz s al sz' Hk Hq Hp. destruct (ST c k Hk) as (sz1 & s1 & al1 & A & B & D0). rewrite Hq in A. injection A as <- <- <-.
    destruct (D0 sz' Hp) as (k' & Hk'). apply Q1 in Hk'. exists k'. split; [exact Hk'|]. rewrite <- EC in Hk |- *.
    apply (W c k); auto. exists c, sz, sz', s, al. unfold shows. rewrite !EQ. auto.
Qed.
End Reach.

(** ** the vocabulary and the numbers read off the dictionary *)
Section Bridge.
Variables (si : SI) (qn : nat -> option (list Z)) (L : list (list nat)).
Hypothesis EQ : forall k, ind_qn si k = qn k.
Hypothesis QS : forall c k, In k (nth c L []) -> exists sz s al, qn k = Some [Z.of_nat c; sz; s; al] /\ In sz (projections s).
Lemma sees : forall c k, In k (nth c L []) -> shows si k c (zsz qn k) (zss qn k) (zal qn k).
Proof. intros c k Hk. unfold shows. rewrite EQ. apply (st_qn qn L QS c k Hk). Qed.
Lemma partners_iff : forall c b c' b', In b (nth c L []) -> In b' (nth c' L []) -> (partners si b b' <-> c = c' /\ mult qn b b').
Proof.
  intros c b c' b' Hb Hb'. pose proof (sees c b Hb) as A. pose proof (sees c' b' Hb') as A'. unfold shows in *. split.
  - intros (x & sz & sz' & s & al & B & B'). unfold shows in *. rewrite A in B. rewrite A' in B'. injection B as B1 B2 B3 B4. injection B' as B1' B2' B3' B4'.
    split; [lia|]. split; congruence.
  - intros (<- & E1 & E2). exists c, (zsz qn b), (zsz qn b'), (zss qn b), (zal qn b). split; [exact A|]. unfold shows. rewrite E1, E2. exact A'.
Qed.
Lemma bottom_iff : forall c b, In b (nth c L []) -> (bottom si b <-> lowest qn b = true).
Proof.
  intros c b Hb. pose proof (sees c b Hb) as A. unfold shows in *. unfold lowest. rewrite Z.eqb_eq. split.
  - intros (x & s & al & B). unfold shows in *. rewrite A in B. injection B as B1 B2 B3 B4. lia.
  - intros E. exists c, (zss qn b), (zal qn b). unfold shows. rewrite A. do 3 f_equal. lia.
Qed.
Lemma same_spin_iff : forall c b bp, In b (nth c L []) -> In bp (nth c L []) -> (same_spin si b bp <-> coh qn b bp).
Proof.
  intros c b bp Hb Hbp. pose proof (sees c b Hb) as A. pose proof (sees c bp Hbp) as A'. unfold shows in *. split.
  - intros (x & sz & s & al & al' & B & B'). unfold shows in *. rewrite A in B. rewrite A' in B'. injection B as B1 B2 B3 B4. injection B' as B1' B2' B3' B4'. split; congruence.
  - intros (E1 & E2). exists c, (zsz qn b), (zss qn b), (zal qn b), (zal qn bp). unfold shows. rewrite A, A', E1, E2. auto.
Qed.
End Bridge.

(** *** C48 *)
(** What the two families of elements share: [swap] tells whether rho_{bp,b} shares the number of rho_{b,bp}. *)
Definition diagonal_numbers (si : SI) (dm : DMI) : Prop :=
  (* every diagonal element has a number below npauli; it is the unique one when it is the bottom of its multiplet *)
  (forall b c, In b (considered dm c) -> exists k u, k < dm_npauli dm /\
     get_ind_dm0 dm b b c = Some (Z.of_nat k) /\ get_conj_dm0 dm b b c = Some true /\
     get_bool_dm0 dm b b c = Some u /\ (u = true <-> bottom si b)) /\
  (* one number for each multiplet *)
  (forall b c b' c', In b (considered dm c) -> In b' (considered dm c') ->
     (get_ind_dm0 dm b b c = get_ind_dm0 dm b' b' c' <-> partners si b b')).
Definition excluded_coherences (si : SI) (dm : DMI) : Prop :=
  forall b bp c, In b (considered dm c) -> In bp (considered dm c) -> b <> bp -> ~ same_spin si b bp ->
    get_ind_dm0 dm b bp c = Some (-1)%Z /\ get_bool_dm0 dm b bp c = Some false.
Definition numbers_used (si : SI) (dm : DMI) : Prop :=
  (forall k, k < dm_ndm0 dm -> exists b bp c, element dm b bp c /\ bottom si b /\ bottom si bp /\
     dict_get Nat.eqb k (inddm0 dm) = Some (b, bp) /\
     get_ind_dm0 dm b bp c = Some (Z.of_nat k) /\ get_bool_dm0 dm b bp c = Some true /\
     (k < dm_npauli dm <-> b = bp)) /\
  (forall k p, dict_get Nat.eqb k (inddm0 dm) = Some p -> k < dm_ndm0 dm).

Section Shared.
Variables (kd : kind) (n : nat) (si : SI) (dm : DMI).
Hypothesis Hn : 1 <= n.
Hypothesis He : Nat.even n = true.
Hypothesis R : reach kd n "ssq" si dm.
Hypothesis W : whole_multiplets si dm.

Lemma shared_diag : diagonal_numbers si dm.
Proof.
  destruct (setup kd n Hn He si dm R W) as (d0 & L & E & SO & EC & EQ & QB & QS & CL). set (qn := ind_qn (si_init n "ssq")) in *. set (qi := qn_ind (si_init n "ssq")) in *.
  split.
  - intros b c Hb. rewrite EC in Hb. destruct (num_of_diag kd qn qi (n + 1) d0 L SO QB QS CL c b Hb) as (k & _ & K & G1 & G2 & G3). rewrite <- E in *.
    exists k, (lowest qn b). repeat (split; auto); apply (bottom_iff si qn L EQ QS c b Hb).
  - intros b c b' c' Hb Hb'. rewrite EC in Hb, Hb'. rewrite (partners_iff si qn L EQ QS c b c' b' Hb Hb'). rewrite E. apply (diag_inj kd qn qi (n + 1) d0 L SO QB QS CL c b c' b' Hb Hb').
Qed.
Lemma shared_excluded : kd <> KPauli -> excluded_coherences si dm.
Proof.
  intros Hk. destruct (setup kd n Hn He si dm R W) as (d0 & L & E & SO & EC & EQ & QB & QS & CL). set (qn := ind_qn (si_init n "ssq")) in *. set (qi := qn_ind (si_init n "ssq")) in *.
  intros b bp c Hb Hbp N NS. rewrite EC in Hb, Hbp. rewrite E. apply (num_off_absent kd qn qi (n + 1) d0 L SO QB QS CL c b bp); auto.
  intros C. apply NS. apply (same_spin_iff si qn L EQ QS c b bp); auto.
Qed.
Lemma shared_used : numbers_used si dm.
Proof.
  destruct (setup kd n Hn He si dm R W) as (d0 & L & E & SO & EC & EQ & QB & QS & CL). set (qn := ind_qn (si_init n "ssq")) in *. set (qi := qn_ind (si_init n "ssq")) in *.
  assert (EK : dm_kind dm = kd) by (rewrite E; apply (dm_fields kd IxSsq qn qi (n + 1) d0 L)).
  split.
  - intros k Hk. rewrite E in Hk. destruct (num_inverse_ssq kd qn qi (n + 1) d0 L SO QB QS CL k Hk) as (b & bp & c & H1 & H2 & H3 & H4 & H5 & H6 & H7 & H8 & H9).
    rewrite <- E in *. exists b, bp, c. unfold element. rewrite EC, EK. split; [auto|]. split; [apply (bottom_iff si qn L EQ QS c b); auto|].
    split; [apply (bottom_iff si qn L EQ QS c bp); auto|]. auto.
  - intros k p H. rewrite E in *. eapply (num_only_ssq kd qn qi (n + 1) d0 L); eauto.
Qed.
(** the coherences *)
Lemma shared_off : kd <> KPauli -> forall b bp c, In b (considered dm c) -> In bp (considered dm c) -> b <> bp -> same_spin si b bp ->
  exists k u v, dm_npauli dm <= k < dm_ndm0 dm /\ get_ind_dm0 dm b bp c = Some (Z.of_nat k) /\
    get_conj_dm0 dm b bp c = Some v /\ get_bool_dm0 dm b bp c = Some (u && v) /\ (u = true <-> bottom si b) /\
    (kd = KDMc -> v = true) /\
    (kd = KDM -> get_ind_dm0 dm bp b c = Some (Z.of_nat k) /\ get_conj_dm0 dm bp b c = Some (negb v) /\ get_bool_dm0 dm bp b c = Some (u && negb v)) /\
  forall b' bp' c' v', In b' (considered dm c') -> In bp' (considered dm c') -> b' <> bp' -> same_spin si b' bp' ->
    get_conj_dm0 dm b' bp' c' = Some v' ->
    (get_ind_dm0 dm b' bp' c' = Some (Z.of_nat k) <->
       (v' = v /\ partners si b b' /\ partners si bp bp') \/ (kd = KDM /\ v' = negb v /\ partners si b bp' /\ partners si bp b')).
Proof.
  intros Hk b bp c Hb Hbp N SS.
  destruct (setup kd n Hn He si dm R W) as (d0 & L & E & SO & EC & EQ & QB & QS & CL). set (qn := ind_qn (si_init n "ssq")) in *. set (qi := qn_ind (si_init n "ssq")) in *.
  rewrite EC in Hb, Hbp. apply (same_spin_iff si qn L EQ QS c b bp Hb Hbp) in SS.
  destruct (off_tag kd qn qi (n + 1) d0 L SO QB QS CL c b bp Hk Hb Hbp SS N) as (j & v & T).
  destruct (off_tag_vals kd qn qi (n + 1) d0 L SO QB QS CL c b bp j v Hb Hbp SS T) as (X1 & X2 & X3 & X4). rewrite <- E in X1, X2, X3, X4.
  exists (length (D qn (n + 1) L) + j), (lowest qn b), v. split; auto. split; auto. split; auto. split; auto.
  split; [symmetry; apply (bottom_iff si qn L EQ QS c b Hb)|].
  split; [intros Ek; destruct v; auto; destruct T as (T & _); congruence|]. split.
  - intros Ek. pose proof (tag_flip kd qn qi (n + 1) L c b bp j v Ek T) as T'.
    destruct (off_tag_vals kd qn qi (n + 1) d0 L SO QB QS CL c bp b j (negb v) Hbp Hb (coh_sym qn _ _ SS) T') as (Y1 & Y2 & Y3 & Y4). rewrite <- E in *.
    rewrite (coh_low qn b bp SS) in Y3. auto.
  - intros b' bp' c' v' Hb' Hbp' N' SS' CJ. rewrite EC in Hb', Hbp'. apply (same_spin_iff si qn L EQ QS c' b' bp' Hb' Hbp') in SS'.
    destruct (off_tag kd qn qi (n + 1) d0 L SO QB QS CL c' b' bp' Hk Hb' Hbp' SS' N') as (j' & v1 & T').
    destruct (off_tag_vals kd qn qi (n + 1) d0 L SO QB QS CL c' b' bp' j' v1 Hb' Hbp' SS' T') as (Y1 & Y2 & Y3 & Y4). rewrite <- E in Y1, Y2, Y3, Y4.
    assert (v1 = v') by congruence. subst v1.
    rewrite (partners_iff si qn L EQ QS c b c' b' Hb Hb'), (partners_iff si qn L EQ QS c bp c' bp' Hbp Hbp').
    rewrite (partners_iff si qn L EQ QS c b c' bp' Hb Hbp'), (partners_iff si qn L EQ QS c bp c' b' Hbp Hb'). rewrite Y2. split.
    + intros EE. assert (j' = j) by (injection EE; lia). subst j'.
      destruct (off_tag_inj kd qn qi (n + 1) L QB QS CL c b bp j v c' b' bp' v' Hb Hbp Hb' Hbp' T T') as (Ec & M).
      destruct (Bool.eqb v v') eqn:EV.
      * left. apply eqb_prop in EV. split; [auto|tauto].
      * right. apply eqb_false_iff in EV. split; [tauto|]. split; [destruct v, v'; auto; congruence|]. tauto.
    + intros [(-> & (<- & M1) & (_ & M2))|(Ek & -> & (<- & M1) & (_ & M2))].
      * pose proof (off_tag_same kd qn qi (n + 1) L QB QS CL c b bp j v b' bp' Hb Hbp Hb' Hbp' T M1 M2) as T2.
        destruct (off_tag_vals kd qn qi (n + 1) d0 L SO QB QS CL c b' bp' j v Hb' Hbp' SS' T2) as (_ & Z2 & _). rewrite <- E in Z2. congruence.
      * pose proof (tag_flip kd qn qi (n + 1) L c b bp j v Ek T) as T1.
        pose proof (off_tag_same kd qn qi (n + 1) L QB QS CL c bp b j (negb v) b' bp' Hbp Hb Hb' Hbp' T1 M2 M1) as T2.
        destruct (off_tag_vals kd qn qi (n + 1) d0 L SO QB QS CL c b' bp' j (negb v) Hb' Hbp' SS' T2) as (_ & Z2 & _). rewrite <- E in Z2. congruence.
Qed.
End Shared.

(** StateIndexingDM: the two orders of a coherence share the number, one of them is conjugated; the unique
    element is the one that is not conjugated, between the bottom states of its multiplets *)
Theorem C48_numbering_dm : forall n si dm, 1 <= n -> Nat.even n = true -> reach KDM n "ssq" si dm -> whole_multiplets si dm ->
  diagonal_numbers si dm /\
  (forall b bp c, In b (considered dm c) -> In bp (considered dm c) -> b <> bp -> same_spin si b bp ->
     exists k u v, dm_npauli dm <= k < dm_ndm0 dm /\
       get_ind_dm0 dm b bp c = Some (Z.of_nat k) /\ get_ind_dm0 dm bp b c = Some (Z.of_nat k) /\
       get_conj_dm0 dm b bp c = Some v /\ get_conj_dm0 dm bp b c = Some (negb v) /\
       get_bool_dm0 dm b bp c = Some (u && v) /\ get_bool_dm0 dm bp b c = Some (u && negb v) /\ (u = true <-> bottom si b) /\
     (* one number for each unordered pair of multiplets *)
     forall b' bp' c' v', In b' (considered dm c') -> In bp' (considered dm c') -> b' <> bp' -> same_spin si b' bp' ->
       get_conj_dm0 dm b' bp' c' = Some v' ->
       (get_ind_dm0 dm b' bp' c' = Some (Z.of_nat k) <->
          (v' = v /\ partners si b b' /\ partners si bp bp') \/ (v' = negb v /\ partners si b bp' /\ partners si bp b'))) /\
  excluded_coherences si dm /\ numbers_used si dm.
Proof.
  intros n si dm Hn He R W. split; [apply (shared_diag KDM n); auto|]. split; [|split; [apply (shared_excluded KDM n); auto; discriminate|apply (shared_used KDM n); auto]].
  intros b bp c Hb Hbp N SS. destruct (shared_off KDM n si dm Hn He R W ltac:(discriminate) b bp c Hb Hbp N SS) as (k & u & v & A1 & A2 & A3 & A4 & A5 & _ & A7 & A8).
  destruct (A7 eq_refl) as (B1 & B2 & B3). exists k, u, v. repeat (split; [auto; tauto|]).
  intros b' bp' c' v' H1 H2 H3 H4 H5. specialize (A8 b' bp' c' v' H1 H2 H3 H4 H5). rewrite A8. tauto.
Qed.
Print Assumptions C48_numbering_dm.

(** StateIndexingDMc: ordered pairs of multiplets, nothing conjugated *)
Theorem C48_numbering_dmc : forall n si dm, 1 <= n -> Nat.even n = true -> reach KDMc n "ssq" si dm -> whole_multiplets si dm ->
  diagonal_numbers si dm /\
  (forall b bp c, In b (considered dm c) -> In bp (considered dm c) -> b <> bp -> same_spin si b bp ->
     exists k u, dm_npauli dm <= k < dm_ndm0 dm /\
       get_ind_dm0 dm b bp c = Some (Z.of_nat k) /\ get_conj_dm0 dm b bp c = Some true /\
       get_bool_dm0 dm b bp c = Some u /\ (u = true <-> bottom si b) /\
     forall b' bp' c', In b' (considered dm c') -> In bp' (considered dm c') -> b' <> bp' -> same_spin si b' bp' ->
       (get_ind_dm0 dm b' bp' c' = Some (Z.of_nat k) <-> partners si b b' /\ partners si bp bp')) /\
  excluded_coherences si dm /\ numbers_used si dm.
Proof.
  intros n si dm Hn He R W. split; [apply (shared_diag KDMc n); auto|]. split; [|split; [apply (shared_excluded KDMc n); auto; discriminate|apply (shared_used KDMc n); auto]].
  intros b bp c Hb Hbp N SS. destruct (shared_off KDMc n si dm Hn He R W ltac:(discriminate) b bp c Hb Hbp N SS) as (k & u & v & A1 & A2 & A3 & A4 & A5 & A6 & _ & A8).
  rewrite (A6 eq_refl) in *. rewrite andb_true_r in A4. exists k, u. repeat (split; [auto; tauto|]).
  intros b' bp' c' H1 H2 H3 H4. destruct (shared_off KDMc n si dm Hn He R W ltac:(discriminate) b' bp' c' H1 H2 H3 H4) as (k' & u' & v' & B1 & B2 & B3 & B4 & B5 & B6 & _ & _).
  rewrite (B6 eq_refl) in B3. rewrite (A8 b' bp' c' true H1 H2 H3 H4 B3). split; [intros [X|(X & _)]; [tauto|discriminate]|tauto].
Qed.
Print Assumptions C48_numbering_dmc.

(** StateIndexingPauli: one number for each multiplet *)
Theorem C48_numbering_pauli : forall n si dm, 1 <= n -> Nat.even n = true -> reach KPauli n "ssq" si dm -> whole_multiplets si dm ->
  diagonal_numbers si dm /\
  (forall k, k < dm_npauli dm -> exists b c, In b (considered dm c) /\ bottom si b /\ get_ind_dm0 dm b b c = Some (Z.of_nat k) /\
     get_bool_dm0 dm b b c = Some true).
Proof.
  intros n si dm Hn He R W. split; [apply (shared_diag KPauli n); auto|]. intros k Hk.
  destruct (shared_used KPauli n si dm Hn He R W) as (U & _). destruct (U k) as (b & bp & c & (E1 & E2 & E3) & B1 & B2 & _ & G1 & G2 & G3).
  - destruct (setup KPauli n Hn He si dm R W) as (d0 & L & E & SO & EC & EQ & QB & QS & CL). rewrite E in Hk |- *.
    rewrite ss_npauli in Hk. rewrite ss_ndm0. lia.
  - apply G3 in Hk. subst bp. exists b, c. auto.
Qed.
Print Assumptions C48_numbering_pauli.

(** with all states considered the multiplets are whole *)
Theorem C48_all_states : forall kd n si dm, 1 <= n -> Nat.even n = true -> call_init kd n "ssq" = (si, dm) -> reach kd n "ssq" si dm /\ whole_multiplets si dm.
Proof.
  intros kd n si dm Hn He E. assert (R : reach kd n "ssq" si dm) by (apply reach_init; auto). split; auto.
  pose proof (considered_charge _ _ _ _ _ Hn R) as CC. pose proof (reach_ssq kd n Hn He si dm R) as RS. destruct (rs_si _ _ _ _ RS) as (cl & Es).
  intros c b b' Hb (c' & sz & sz' & s & al & B & B'). unfold shows in *.
  destruct (C05_quantum_numbers n "ssq" Hn) as (Q1 & Q2 & Q3).
  rewrite Es, ssq_ind_with in B, B' by auto.
  destruct (CC c b Hb) as (Hc & st & Est & Ech). rewrite Es in Est.
  destruct (Q3 _ _ B) as (t & Et & Ect & _). destruct (Q3 _ _ B') as (t' & Et' & Ect' & _). cbn [nth] in Ect, Ect'.
  change (get_state (si_init n "ssq") b = Some st) in Est. assert (t = st) by congruence. subst t. assert (c' = c) by lia. subst c'.
  unfold call_init, call_use_all, set_statesdm in E. injection E as E1 <-. unfold considered.
  destruct (dm_fields kd (si_indexing (si_init n "ssq")) (ind_qn (si_init n "ssq")) (qn_ind (si_init n "ssq")) (si_ncharge (si_init n "ssq")) (repeat 0 (si_nmany (si_init n "ssq")))
     (si_chargelst (si_init n "ssq") ++ [[]])) as (_ & _ & F3 & _). rewrite F3, nth_app_nil.
  apply (ok_charge_block _ _ c b' (si_init_ok n "ssq")); [rewrite init_n; auto|]. exists t'. split; auto. rewrite <- electrons_charge. lia.
Qed.
Print Assumptions C48_all_states.

(** Four spin orbitals: the triplet 5, 9, 10 has one number; the doublets 1, 3 and 2, 4 have one coherence. *)
Example C48_case : let '(si, dm) := call_init KDM 4 "ssq" in
  partners si 5 10 /\ bottom si 5 /\ same_spin si 3 4 /\ ~ same_spin si 6 9 /\
  dm_npauli dm = 10 /\ dm_ndm0 dm = 15 /\
  map (fun b => get_ind_dm0 dm b b 2) [5; 6; 7; 8; 9; 10] = map (fun k => Some k) [3; 4; 5; 6; 3; 3]%Z /\
  map (fun p => get_ind_dm0 dm (fst p) (snd p) 1) [(1, 2); (2, 1); (3, 4); (4, 3); (1, 4)] = map (fun k => Some k) [10; 10; 10; 10; -1]%Z /\
  map (fun p => get_conj_dm0 dm (fst p) (snd p) 1) [(1, 2); (2, 1); (3, 4); (4, 3)] = map (fun k => Some k) [true; false; true; false] /\
  map (fun p => get_bool_dm0 dm (fst p) (snd p) 1) [(1, 2); (2, 1); (3, 4); (4, 3)] = map (fun k => Some k) [true; false; false; false] /\
  dict_get Nat.eqb 10 (inddm0 dm) = Some (1, 2).
Proof.
  unfold call_init, call_use_all, set_statesdm. split; [|split; [|split; [|split]]].
  - exists 2, (-2)%Z, 2%Z, 2%Z, 0%Z. split; vm_compute; reflexivity.
  - exists 2, 2%Z, 0%Z. vm_compute. reflexivity.
  - exists 1, 1%Z, 1%Z, 0%Z, 1%Z. split; vm_compute; reflexivity.
  - intros (c & sz & s & al & al' & A & B). vm_compute in A, B. congruence.
  - vm_compute. repeat split.
Qed.

(** A selection that breaks a multiplet: without state 4, the partner of state 2, the coherence of the
    doublets is entered at the stale place of state 4, which is the place of the population of state 5. *)
Theorem C48_broken_multiplet_refuted : exists si dm, reach KDM 4 "ssq" si dm /\ ~ whole_multiplets si dm /\
  In 5 (considered dm 2) /\ exists k, dm_npauli dm <= k /\
    get_ind_dm0 dm 5 5 2 = Some (Z.of_nat k) /\ get_ind_dm0 dm 1 2 1 = Some (Z.of_nat k).
Proof.
  set (lst := [[0]; [1; 2; 3]; [5; 6; 7; 8; 9; 10]; [11; 12; 13; 14]; [15]]).
  destruct (call_init KDM 4 "ssq") as [si0 dm0] eqn:E0. destruct (call_set KDM dm0 si0 lst) as [si dm] eqn:E.
  exists si, dm. assert (R : reach KDM 4 "ssq" si dm).
  { eapply reach_set; [apply reach_init; exact E0| |exact E]. vm_compute in E0. injection E0 as <- <-. split; [vm_compute; lia|]. split.
    - intros c Hc. cbn in Hc. do 5 (destruct c as [|c]; [lia|]). destruct c; reflexivity.
    - intros c. do 5 (destruct c as [|c]; [split; [vm_compute; repeat constructor; cbn; intuition discriminate|
        intros k Hk; cbn in Hk; repeat (destruct Hk as [<-|Hk]; [eexists; split; vm_compute; reflexivity|]); destruct Hk]|]).
      split; [destruct c; constructor|]. intros k Hk. destruct c; destruct Hk. }
  split; [exact R|]. vm_compute in E0. injection E0 as <- <-. vm_compute in E. injection E as <- <-. split; [|split; [vm_compute; auto|]].
  - intros WM. specialize (WM 1 2 4). cut (In 4 [1; 2; 3]); [cbn; intuition discriminate|]. apply WM; [cbn; auto|].
    exists 1, (-1)%Z, 1%Z, 1%Z, 1%Z. split; vm_compute; reflexivity.
  - exists 10. vm_compute. repeat split. lia.
Qed.
Print Assumptions C48_broken_multiplet_refuted.
