(** Facts about the lists built by BuilderManyBody (ManyBody.v), and: the layout made by set_statesdm from any
    well-formed lists of states is well formed (Layout.v has it for objects of single-particle states). *)
From Coq Require Import String List Arith Lia ZArith Bool Permutation.
From Verif Require Import Base Bits Indexing IndexingProofs RemoveProofs Binom SsqProofs Qn
  PropIndexing DMIndex DMIndexProofs DMReach PropDMIndex Layout Selection ManyBody.
Import ListNotations.
Open Scope nat_scope.
Local Notation length := List.length.

(** ** set_statesdm from well-formed lists *)
Section Made.
Variables (ixs : ix) (qn : nat -> option (list Z)) (qi : list Z -> option nat) (nc : nat) (d0 : list nat) (lst : list (list nat)).
Hypothesis Hix : ixs <> IxSsq.
Hypothesis SO : states_ok nc (length d0) (lst ++ [[]]).
Variable dm : DMI.
Hypothesis E : dm = set_statesdm' KDM ixs qn qi nc d0 (lst ++ [[]]).

Lemma made_fields : dm_kind dm = KDM /\ dm_ncharge dm = nc /\ dm_statesdm dm = lst ++ [[]] /\
  dm_ndm1 dm = psum (fun j => length (nth j (lst ++ [[]]) []) * length (nth (S j) (lst ++ [[]]) [])) (nc - 1) /\
  dm_ndm0r dm = dm_npauli dm + 2 * (dm_ndm0 dm - dm_npauli dm).
Proof.
  destruct (dm_fields KDM ixs qn qi nc d0 (lst ++ [[]])) as (F1 & F2 & F3 & F4 & F5 & F6 & _ & _ & _ & _ & _ & _ & _ & F14 & F15).
  rewrite <- E in F1, F2, F3, F4, F5, F6, F14, F15. rewrite F15, F6. auto.
Qed.
Lemma made_slot : forall b bp c, slot_at (lay_of dm) b bp (Z.of_nat c) = dm0_slot dm b bp c.
Proof.
  intros. unfold slot_at, dm0_slot. destruct made_fields as [-> _]. simpl. now rewrite Nat2Z.id.
Qed.
Lemma made_ind0 : forall b bp c k, get_ind_dm0 dm b bp c = Some k -> ind0 (lay_of dm) b bp (Z.of_nat c) = k.
Proof. intros. unfold ind0. rewrite made_slot. now apply nth_of_error. Qed.
Lemma made_uniq : forall b bp c k, get_bool_dm0 dm b bp c = Some k -> uniq (lay_of dm) b bp (Z.of_nat c) = k.
Proof. intros. unfold uniq. rewrite made_slot. now apply nth_of_error. Qed.
Lemma made_cnj : forall b bp c k, get_conj_dm0 dm b bp c = Some k -> cnj (lay_of dm) b bp (Z.of_nat c) = k.
Proof. intros. unfold cnj. rewrite made_slot. now apply nth_of_error. Qed.

Theorem layout_made : layout (lay_of dm).
Proof.
  destruct made_fields as (KD & NC & F3 & F6 & F14).
  pose proof made_ind0 as I0. pose proof made_uniq as U0. pose proof made_cnj as C0.
  assert (EQ1 : forall c b q, In c (nth (S q) (lst ++ [[]]) []) -> get_ind_dm1 dm c b q = slot1 nc d0 (lst ++ [[]]) c b q).
  { intros c b q Hc. rewrite E. apply dm1_slot_eq; auto. destruct (so_in _ _ _ _ _ SO Hc). lia. }
  assert (P1 : forall c b q, In c (considered dm (S q)) -> In b (considered dm q) -> get_ind_dm1 dm c b q < dm_ndm1 dm).
  { unfold considered. rewrite F3, F6. intros c b q Hc Hb. rewrite EQ1 by auto.
    eapply Nat.lt_le_trans; [apply (slot1_range nc d0 _ SO c b q Hc Hb)|].
    apply psum_mono. destruct (so_in _ _ _ _ _ SO Hc). lia. }
  assert (P2 : forall c b q c' b' q', In c (considered dm (S q)) -> In b (considered dm q) ->
     In c' (considered dm (S q')) -> In b' (considered dm q') ->
     get_ind_dm1 dm c b q = get_ind_dm1 dm c' b' q' -> c = c' /\ b = b' /\ q = q').
  { unfold considered. rewrite F3. intros c b q c' b' q' H1 H2 H3 H4 EE. rewrite !EQ1 in EE by auto. eapply slot1_inj; eauto. }
  assert (ST : forall c, states (lay_of dm) (Z.of_nat c) = nth c (lst ++ [[]]) []).
  { intros c. rewrite states_nat. unfold considered. now rewrite F3. }
  assert (CON : forall c, considered dm c = nth c (lst ++ [[]]) []).
  { intros. unfold considered. now rewrite F3. }
  assert (NUM : forall b bp c, In b (nth c (lst ++ [[]]) []) -> In bp (nth c (lst ++ [[]]) []) -> b <> bp ->
     (exists k, dm_npauli dm <= k < dm_ndm0 dm /\
       ind0 (lay_of dm) b bp (Z.of_nat c) = Z.of_nat k /\ ind0 (lay_of dm) bp b (Z.of_nat c) = Z.of_nat k /\
       exists u, uniq (lay_of dm) b bp (Z.of_nat c) = u /\ uniq (lay_of dm) bp b (Z.of_nat c) = negb u /\
         cnj (lay_of dm) b bp (Z.of_nat c) = u /\ cnj (lay_of dm) bp b (Z.of_nat c) = negb u /\
         (u = true <-> In (b, bp) (combinations2 (nth c (lst ++ [[]]) [])))) \/
     (ind0 (lay_of dm) b bp (Z.of_nat c) = (-1)%Z /\ ind0 (lay_of dm) bp b (Z.of_nat c) = (-1)%Z)).
  { intros b bp c Hb Hbp Hne.
    assert (ND := so_block_nodup _ _ _ c SO).
    assert (IC : forall x y, In (c, (x, y)) (off_items KDM ixs qn nc (lst ++ [[]])) ->
       In (x, y) (combinations2 (nth c (lst ++ [[]]) []))).
    { intros x y H. simpl in H. apply filter_In in H. destruct H as [H _]. apply in_flat_map in H.
      destruct H as (c1 & _ & H). apply in_map_iff in H. destruct H as (w & Ew & H).
      injection Ew as -> ->. auto. }
    destruct (sel ixs qn b bp) eqn:X.
    - left. destruct (O_complete KDM ixs qn qi nc d0 (lst ++ [[]]) SO c b bp) as [HO|HO];
        auto; try discriminate.
      + destruct (num_off KDM ixs qn qi nc d0 _ SO Hix b bp c HO) as (k & K & A & B & C & Y).
        destruct (Y eq_refl) as (A' & B' & C'). rewrite <- E in *. exists k. split; auto.
        split; [apply I0; auto|]. split; [apply I0; auto|]. exists true.
        split; [apply U0; auto|]. split; [apply U0; auto|]. split; [apply C0; auto|].
        split; [apply C0; auto|]. split; auto.
      + destruct (num_off KDM ixs qn qi nc d0 _ SO Hix bp b c HO) as (k & K & A & B & C & Y).
        destruct (Y eq_refl) as (A' & B' & C'). rewrite <- E in *. exists k. split; auto.
        split; [apply I0; auto|]. split; [apply I0; auto|]. exists false.
        split; [apply U0; auto|]. split; [apply U0; auto|]. split; [apply C0; auto|].
        split; [apply C0; auto|]. split; [discriminate|]. intros H. exfalso.
        apply IC in HO. apply (combinations2_in _ b bp ND). auto.
    - right. split; apply I0; rewrite E.
      + apply num_absent; auto; try discriminate.
      + apply num_absent; auto; try discriminate. now rewrite sel_sym. }
  constructor.
  - unfold states. simpl. rewrite F3, py_nth_last. reflexivity.
  - change (ly_ncharge (lay_of dm)) with (dm_ncharge dm). rewrite NC, ST. apply (so_empty _ _ _ SO). lia.
  - intros c Hc. destruct (zc c Hc) as (k & ->). rewrite ST. eapply so_block_nodup; eauto.
  - intros c c' b Hc Hc'. destruct (zc c Hc) as (k & ->). destruct (zc c' Hc') as (k' & ->). rewrite !ST.
    intros A B. f_equal. eapply so_same_block; eauto.
  - intros c b Hc. destruct (zc c Hc) as (k & ->). rewrite ST. intros A.
    destruct (so_in _ _ _ _ _ SO A). simpl. rewrite NC. lia.
  - simpl. rewrite E. rewrite dm_npauli_eq by auto. rewrite dm_ndm0_eq by auto. lia.
  - exact F14.
  - intros b c Hc Hb. destruct (zc c Hc) as (k & ->). rewrite ST in Hb.
    destruct (num_diag KDM ixs qn qi nc d0 _ SO Hix b k Hb) as (j & J & A & B & C).
    rewrite <- E in *. rewrite (I0 _ _ _ _ A). simpl. split; [lia|]. split; [apply U0; auto|apply C0; auto].
  - intros b bp c Hc Hb Hbp Hne. destruct (zc c Hc) as (k & ->). rewrite ST in *.
    destruct (NUM b bp k Hb Hbp Hne) as [(j & J & A & B & u & U1 & U2 & C1 & C2 & _)|[A B]].
    + rewrite A, B. split; auto. intros _. simpl. split; [lia|]. rewrite U1, U2, C1, C2. auto.
    + rewrite A, B. split; auto. congruence.
  - intros b bp c b' bp' c' Hc Hc' Hb Hbp Hb' Hbp' EQ NE.
    destruct (zc c Hc) as (k & ->). destruct (zc c' Hc') as (k' & ->). rewrite ST in *.
    assert (G : forall x y q, In x (nth q (lst ++ [[]]) []) -> In y (nth q (lst ++ [[]]) []) ->
       get_ind_dm0 dm x y q = Some (ind0 (lay_of dm) x y (Z.of_nat q))).
    { intros x y q Hx Hy. 
      unfold get_ind_dm0, ind0. rewrite made_slot. simpl.
      apply nth_error_nth'. unfold mapdm0.
      rewrite (writes_length _ (ev_slot dm) (fun e => Z.of_nat (e_cnt e))), repeat_length.
      rewrite E. rewrite dm0_slot_eq; auto; [|apply (so_in _ _ _ _ _ SO Hx)]. now apply slot0_bound. }
    destruct (num_inj KDM ixs qn qi nc d0 _ SO Hix b bp k b' bp' k' (ind0 (lay_of dm) b bp (Z.of_nat k))) as (A & B); auto; try discriminate.
    + rewrite <- E. auto.
    + rewrite <- E, EQ. auto.
    + subst. split; auto. destruct B as [B|(_ & B)]; auto.
  - intros k Hk. simpl in Hk. destruct (num_inverse KDM ixs qn qi nc d0 _ SO Hix k) as (b & bp & c & H1 & H2 & H3 & H4 & H5 & H6).
    + rewrite <- E. assert (dm_npauli dm <= dm_ndm0 dm); [|lia].
      rewrite E. rewrite dm_npauli_eq by auto. rewrite dm_ndm0_eq by auto. lia.
    + rewrite <- E in *. apply H6 in Hk. subst bp. exists b, (Z.of_nat c). rewrite ST. split; [lia|]. split; auto.
  - intros k Hk. simpl in Hk. destruct (num_inverse KDM ixs qn qi nc d0 _ SO Hix k) as (b & bp & c & H1 & H2 & H3 & H4 & H5 & H6).
    + rewrite <- E. lia.
    + rewrite <- E in *. exists b, bp, (Z.of_nat c). rewrite ST. split; [lia|]. split; auto. split; auto.
      split; [intros X; apply H6 in X; lia|]. split; auto.
  - intros b bp c Hc Hb Hbp Hne Hi. destruct (zc c Hc) as (k & ->). rewrite ST in *.
    destruct (NUM b bp k Hb Hbp Hne) as [(j & J & A & B & u & U1 & U2 & C1 & C2 & W)|[A B]]; [|congruence].
    now rewrite U1.
  - intros c b q Hq. destruct (zc q Hq) as (k & ->). replace (Z.of_nat k + 1)%Z with (Z.of_nat (S k)) by lia.
    rewrite !states_nat, ind1_dm. apply P1.
  - intros c b q c' b' q' Hq Hq'. destruct (zc q Hq) as (k & ->). destruct (zc q' Hq') as (k' & ->).
    replace (Z.of_nat k + 1)%Z with (Z.of_nat (S k)) by lia.
    replace (Z.of_nat k' + 1)%Z with (Z.of_nat (S k')) by lia.
    rewrite !states_nat, !ind1_dm. intros A B C D EE.
    destruct (P2 _ _ _ _ _ _ A B C D EE) as (-> & -> & ->). auto.
Qed.
End Made.

(** ** The lists of BuilderManyBody *)
Definition lands (Na : list Z) (m k i : nat) : bool :=
  match nth_error Na i with
  | Some q => match py_pos m q with Some k' => k' =? k | None => false end
  | None => false
  end.

Lemma py_pos_lt : forall m q k, py_pos m q = Some k -> k < m.
Proof.
  intros m q k. unfold py_pos. destruct (Z.leb_spec 0 q).
  - destruct (Z.ltb_spec q (Z.of_nat m)); [|discriminate]. intros E. injection E as <-. lia.
  - destruct (Z.leb_spec (- Z.of_nat m) q); [|discriminate]. intros E. injection E as <-. lia.
Qed.

Lemma fill_some : forall Na is_ st,
  (forall i, In i is_ -> exists q k, nth_error Na i = Some q /\ py_pos (length st) q = Some k) ->
  exists st', mb_fill Na is_ st = Some st' /\ length st' = length st /\
    forall k, k < length st -> nth k st' [] = nth k st [] ++ filter (lands Na (length st) k) is_.
Proof.
  intros Na. induction is_ as [|i is_ IH]; intros st H; simpl.
  - exists st. repeat split; auto. intros. now rewrite app_nil_r.
  - destruct (H i (or_introl eq_refl)) as (q & k & Eq & Ek). rewrite Eq, Ek. pose proof (py_pos_lt _ _ _ Ek) as Hk.
    destruct (IH (upd_nth k (fun l => l ++ [i]) st)) as (st' & E & LN & NT).
    { rewrite upd_nth_length. intros j Hj. apply H. now right. }
    rewrite upd_nth_length in LN, NT. exists st'. repeat split; auto. intros k' Hk'. rewrite NT by auto.
    unfold lands at 2. rewrite Eq, Ek. destruct (Nat.eqb_spec k k') as [->|N].
    + rewrite nth_upd_same by auto. now rewrite <- app_assoc.
    + now rewrite nth_upd_other by auto.
Qed.

Lemma fill_none : forall Na is_ st i, In i is_ ->
  (forall q, nth_error Na i = Some q -> py_pos (length st) q = None) -> mb_fill Na is_ st = None.
Proof.
  intros Na. induction is_ as [|j is_ IH]; intros st i Hi H; [destruct Hi|]. simpl.
  destruct (nth_error Na j) as [q|] eqn:Eq; auto. destruct (py_pos (length st) q) as [k|] eqn:Ek; auto.
  destruct Hi as [->|Hi]; [rewrite (H q Eq) in Ek; discriminate|]. apply (IH _ i); auto. rewrite upd_nth_length. auto.
Qed.

Lemma fold_min_spec : forall l x, (forall y, In y (x :: l) -> fold_left Z.min l x <= y)%Z /\ In (fold_left Z.min l x) (x :: l).
Proof.
  induction l as [|a l IH]; intros x; simpl.
  - split; auto. intros y [->|[]]. lia.
  - destruct (IH (Z.min x a)) as (A & B). split.
    + intros y [->|[->|Hy]].
      * pose proof (A (Z.min y a) (or_introl eq_refl)). lia.
      * pose proof (A (Z.min x y) (or_introl eq_refl)). lia.
      * apply A. now right.
    + destruct B as [B|B]; auto. rewrite <- B. destruct (Z.min_spec x a) as [(_ & ->)|(_ & ->)]; auto.
Qed.
Lemma fold_max_spec : forall l x, (forall y, In y (x :: l) -> y <= fold_left Z.max l x)%Z /\ In (fold_left Z.max l x) (x :: l).
Proof.
  induction l as [|a l IH]; intros x; simpl.
  - split; auto. intros y [->|[]]. lia.
  - destruct (IH (Z.max x a)) as (A & B). split.
    + intros y [->|[->|Hy]].
      * pose proof (A (Z.max y a) (or_introl eq_refl)). lia.
      * pose proof (A (Z.max x y) (or_introl eq_refl)). lia.
      * apply A. now right.
    + destruct B as [B|B]; auto. rewrite <- B. destruct (Z.max_spec x a) as [(_ & ->)|(_ & ->)]; auto.
Qed.
(** nmin, nmax are the least and the greatest particle number *)
Definition extremes (Na : list Z) (nmin nmax : Z) : Prop :=
  In nmin Na /\ In nmax Na /\ forall q, In q Na -> (nmin <= q <= nmax)%Z.
Lemma extremes_eq : forall Na nmin nmax, extremes Na nmin nmax -> z_min Na = Some nmin /\ z_max Na = Some nmax.
Proof.
  intros [|x l] nmin nmax (A & B & C); [destruct A|]. simpl.
  destruct (fold_min_spec l x) as (M1 & M2). destruct (fold_max_spec l x) as (X1 & X2).
  pose proof (M1 _ A). pose proof (X1 _ B). pose proof (C _ M2). pose proof (C _ X2). split; f_equal; lia.
Qed.
