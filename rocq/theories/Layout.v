(** The part of the state-indexing object that the kernel code reads, and what is known about it.
    qmeq/indexing.py class StateIndexingDM (985-1046), used by qmeq/approach/kernel_handler.py. *)
From Coq Require Import String List Arith Lia ZArith Bool Permutation.
From Verif Require Import Base Bits Indexing IndexingProofs RemoveProofs Binom SsqProofs Qn
  PropIndexing DMIndex DMIndexProofs DMReach PropDMIndex.
Import ListNotations.
Open Scope nat_scope.
Local Notation length := List.length.

(** ** Model *)
(** The attributes as plain arrays (remove_coherences, builder/various.py 240-282, writes into
    mapdm0, ndm0 and ndm0r directly). *)
Record Lay := mkLay {
  ly_ncharge : nat;
  ly_statesdm : list (list nat);
  ly_lenlst : list nat;
  ly_dictdm : list nat;
  ly_shiftlst0 : list nat;
  ly_shiftlst1 : list nat;
  ly_mapdm0 : list Z;
  ly_booldm0 : list bool;
  ly_conjdm0 : list bool;
  ly_inddm0 : list (nat * (nat * nat));
  ly_ndm0_ : nat;
  ly_npauli : nat; ly_ndm0 : nat; ly_ndm0r : nat; ly_ndm1 : nat
}.

Definition lay_of (dm : DMI) : Lay :=
  mkLay (dm_ncharge dm) (dm_statesdm dm) (dm_lenlst dm) (dm_dictdm dm) (dm_shiftlst0 dm) (dm_shiftlst1 dm)
        (mapdm0 dm) (booldm0 dm) (conjdm0 dm) (inddm0 dm) (dm_ndm0_ dm)
        (dm_npauli dm) (dm_ndm0 dm) (dm_ndm0r dm) (dm_ndm1 dm).

(** [statesdm[charge]] for any integer charge, with Python's negative indices *)
Definition states (L : Lay) (c : Z) : list nat :=
  match py_nth (ly_statesdm L) c with Some l => l | None => [] end.
(** [range(ncharge)], [range(ncharge-1)] *)
Definition charges (L : Lay) : list Z := map Z.of_nat (seq 0 (ly_ncharge L)).
Definition charges1 (L : Lay) : list Z := map Z.of_nat (seq 0 (ly_ncharge L - 1)).

(** indexing.py 1008-1019.  The array position; out of range reads cannot happen for considered
    states (C07), so the default values are never used. *)
Definition slot_at (L : Lay) (b bp : nat) (c : Z) : nat :=
  nth (Z.to_nat c) (ly_lenlst L) 0 * nth b (ly_dictdm L) 0 + nth bp (ly_dictdm L) 0
  + nth (Z.to_nat c) (ly_shiftlst0 L) 0.
Definition ind0 (L : Lay) (b bp : nat) (c : Z) : Z := nth (slot_at L b bp c) (ly_mapdm0 L) (-1)%Z.
Definition uniq (L : Lay) (b bp : nat) (c : Z) : bool := nth (slot_at L b bp c) (ly_booldm0 L) false.
Definition cnj (L : Lay) (b bp : nat) (c : Z) : bool := nth (slot_at L b bp c) (ly_conjdm0 L) false.
(** indexing.py 1046 *)
Definition ind1 (L : Lay) (c b : nat) (bc : Z) : nat :=
  nth (Z.to_nat bc) (ly_lenlst L) 0 * nth c (ly_dictdm L) 0 + nth b (ly_dictdm L) 0
  + nth (Z.to_nat bc) (ly_shiftlst1 L) 0.

(** ** What the kernel proofs use *)
Record layout (L : Lay) : Prop := {
  lo_below : states L (-1) = [];
  lo_above : states L (Z.of_nat (ly_ncharge L)) = [];
  lo_nodup : forall c, (0 <= c)%Z -> NoDup (states L c);
  lo_same : forall c c' b, (0 <= c)%Z -> (0 <= c')%Z -> In b (states L c) -> In b (states L c') -> c = c';
  lo_range : forall c b, (0 <= c)%Z -> In b (states L c) -> (c < Z.of_nat (ly_ncharge L))%Z;
  lo_le : ly_npauli L <= ly_ndm0 L;
  lo_size : ly_ndm0r L = ly_npauli L + 2 * (ly_ndm0 L - ly_npauli L);
  lo_diag : forall b c, (0 <= c)%Z -> In b (states L c) ->
     (0 <= ind0 L b b c < Z.of_nat (ly_npauli L))%Z /\ uniq L b b c = true /\ cnj L b b c = true;
  lo_off : forall b bp c, (0 <= c)%Z -> In b (states L c) -> In bp (states L c) -> b <> bp ->
     ind0 L bp b c = ind0 L b bp c /\
     (ind0 L b bp c <> (-1)%Z ->
        (Z.of_nat (ly_npauli L) <= ind0 L b bp c < Z.of_nat (ly_ndm0 L))%Z /\
        uniq L bp b c = negb (uniq L b bp c) /\
        cnj L b bp c = uniq L b bp c /\ cnj L bp b c = negb (uniq L b bp c));
  lo_inj : forall b bp c b' bp' c', (0 <= c)%Z -> (0 <= c')%Z ->
     In b (states L c) -> In bp (states L c) -> In b' (states L c') -> In bp' (states L c') ->
     ind0 L b bp c = ind0 L b' bp' c' -> ind0 L b bp c <> (-1)%Z ->
     c = c' /\ ((b = b' /\ bp = bp') \/ (b = bp' /\ bp = b'));
  lo_surj : forall k, k < ly_npauli L -> exists b c, (0 <= c)%Z /\ In b (states L c) /\ ind0 L b b c = Z.of_nat k;
  lo_surj2 : forall k, ly_npauli L <= k < ly_ndm0 L -> exists b bp c, (0 <= c)%Z /\ In b (states L c) /\
     In bp (states L c) /\ b <> bp /\ ind0 L b bp c = Z.of_nat k /\ uniq L b bp c = true;
  lo_order : forall b bp c, (0 <= c)%Z -> In b (states L c) -> In bp (states L c) -> b <> bp ->
     ind0 L b bp c <> (-1)%Z -> (uniq L b bp c = true <-> In (b, bp) (combinations2 (states L c)));
  lo_ind1 : forall c b q, (0 <= q)%Z -> In c (states L (q + 1)) -> In b (states L q) -> ind1 L c b q < ly_ndm1 L;
  lo_ind1_inj : forall c b q c' b' q', (0 <= q)%Z -> (0 <= q')%Z ->
     In c (states L (q + 1)) -> In b (states L q) -> In c' (states L (q' + 1)) -> In b' (states L q') ->
     ind1 L c b q = ind1 L c' b' q' -> c = c' /\ b = b' /\ q = q'
}.

Lemma states_nat : forall dm c, states (lay_of dm) (Z.of_nat c) = considered dm c.
Proof.
  intros. unfold states, considered. simpl. rewrite py_nth_nat.
  destruct (nth_error (dm_statesdm dm) c) eqn:E.
  - symmetry. now apply nth_error_nth.
  - symmetry. apply nth_overflow. now apply nth_error_None.
Qed.

Lemma nth_of_error : forall A (l : list A) k x d, nth_error l k = Some x -> nth k l d = x.
Proof. intros. now apply nth_error_nth. Qed.

Section Reach.
Variables (n : nat) (name : string) (si : SI) (dm : DMI).
Hypotheses (Hn : 1 <= n) (Hix : ix_of name n <> IxSsq) (R : reach KDM n name si dm).

Lemma reach_kind : dm_kind dm = KDM /\ dm_ncharge dm = n + 1.
Proof.
  apply reach_reached in R; auto.
  destruct (rc_make _ _ _ _ _ R) as (qn & qi & d0 & lst & E & L & SEL & SO & HQ).
  pose proof (dm_fields KDM (ix_of name n) qn qi (n + 1) d0 (lst ++ [[]])) as F.
  rewrite <- E in F. destruct F as (F1 & F2 & _). auto.
Qed.

Lemma slot_at_dm : forall b bp c, slot_at (lay_of dm) b bp (Z.of_nat c) = dm0_slot dm b bp c.
Proof.
  intros. unfold slot_at, dm0_slot. destruct reach_kind as [-> _]. simpl. now rewrite Nat2Z.id.
Qed.
Lemma ind0_dm : forall b bp c k, get_ind_dm0 dm b bp c = Some k -> ind0 (lay_of dm) b bp (Z.of_nat c) = k.
Proof. intros. unfold ind0. rewrite slot_at_dm. now apply nth_of_error. Qed.
Lemma uniq_dm : forall b bp c k, get_bool_dm0 dm b bp c = Some k -> uniq (lay_of dm) b bp (Z.of_nat c) = k.
Proof. intros. unfold uniq. rewrite slot_at_dm. now apply nth_of_error. Qed.
Lemma cnj_dm : forall b bp c k, get_conj_dm0 dm b bp c = Some k -> cnj (lay_of dm) b bp (Z.of_nat c) = k.
Proof. intros. unfold cnj. rewrite slot_at_dm. now apply nth_of_error. Qed.
Lemma ind1_dm : forall c b q, ind1 (lay_of dm) c b (Z.of_nat q) = get_ind_dm1 dm c b q.
Proof. intros. unfold ind1, get_ind_dm1. simpl. now rewrite Nat2Z.id. Qed.
End Reach.

Lemma zc : forall c, (0 <= c)%Z -> exists k, c = Z.of_nat k.
Proof. intros c H. exists (Z.to_nat c). lia. Qed.

Theorem layout_reach : forall n name si dm, 1 <= n -> ix_of name n <> IxSsq -> reach KDM n name si dm ->
  layout (lay_of dm).
Proof.
  intros n name si dm Hn Hix R0.
  pose proof (C11_outer_sectors KDM n name si dm Hn R0) as (O1 & O2 & O3).
  pose proof (C09_first_order_slots KDM n name si dm Hn ltac:(discriminate) R0) as (P1 & P2 & _).
  pose proof (reach_kind n name si dm Hn R0) as (KD & NC).
  pose proof (fun b bp c k => ind0_dm n name si dm Hn R0 b bp c k) as I0.
  pose proof (fun b bp c k => uniq_dm n name si dm Hn R0 b bp c k) as U0.
  pose proof (fun b bp c k => cnj_dm n name si dm Hn R0 b bp c k) as C0.
  pose proof R0 as R. apply reach_reached in R; auto.
  destruct (rc_make _ _ _ _ _ R) as (qn & qi & d0 & lst & E & L & SEL & SO & HQ).
  pose proof (dm_fields KDM (ix_of name n) qn qi (n + 1) d0 (lst ++ [[]])) as F.
  rewrite <- E in F. destruct F as (F1 & F2 & F3 & _ & _ & _ & _ & _ & _ & _ & _ & _ & _ & F14 & _).
  rewrite <- L in SO.
  assert (ST : forall c, states (lay_of dm) (Z.of_nat c) = nth c (lst ++ [[]]) []).
  { intros c. rewrite states_nat. unfold considered. now rewrite F3. }
  assert (CON : forall c, considered dm c = nth c (lst ++ [[]]) []).
  { intros. unfold considered. now rewrite F3. }
  assert (NUM : forall b bp c, In b (nth c (lst ++ [[]]) []) -> In bp (nth c (lst ++ [[]]) []) -> b <> bp ->
     (exists k, dm_npauli dm <= k < dm_ndm0 dm /\
       ind0 (lay_of dm) b bp (Z.of_nat c) = Z.of_nat k /\ ind0 (lay_of dm) bp b (Z.of_nat c) = Z.of_nat k /\
       exists u, uniq (lay_of dm) b bp (Z.of_nat c) = u /\ uniq (lay_of dm) bp b (Z.of_nat c) = negb u /\
         cnj (lay_of dm) b bp (Z.of_nat c) = u /\ cnj (lay_of dm) bp b (Z.of_nat c) = negb u /\
         (u = true <-> In (b, bp) (combinations2 (nth c (lst ++ [[]]) [])))) \/
     (ind0 (lay_of dm) b bp (Z.of_nat c) = (-1)%Z /\ ind0 (lay_of dm) bp b (Z.of_nat c) = (-1)%Z)).
  { intros b bp c Hb Hbp Hne.
    assert (ND := so_block_nodup _ _ _ c SO).
    assert (IC : forall x y, In (c, (x, y)) (off_items KDM (ix_of name n) qn (n + 1) (lst ++ [[]])) ->
       In (x, y) (combinations2 (nth c (lst ++ [[]]) []))).
    { intros x y H. simpl in H. apply filter_In in H. destruct H as [H _]. apply in_flat_map in H.
      destruct H as (c1 & _ & H). apply in_map_iff in H. destruct H as (w & Ew & H).
      injection Ew as -> ->. auto. }
    destruct (sel (ix_of name n) qn b bp) eqn:X.
    - left. destruct (O_complete KDM (ix_of name n) qn qi (n + 1) d0 (lst ++ [[]]) SO c b bp) as [HO|HO];
        auto; try discriminate.
      + destruct (num_off KDM (ix_of name n) qn qi (n + 1) d0 _ SO Hix b bp c HO) as (k & K & A & B & C & Y).
        destruct (Y eq_refl) as (A' & B' & C'). rewrite <- E in *. exists k. split; auto.
        split; [apply I0; auto|]. split; [apply I0; auto|]. exists true.
        split; [apply U0; auto|]. split; [apply U0; auto|]. split; [apply C0; auto|].
        split; [apply C0; auto|]. split; auto.
      + destruct (num_off KDM (ix_of name n) qn qi (n + 1) d0 _ SO Hix bp b c HO) as (k & K & A & B & C & Y).
        destruct (Y eq_refl) as (A' & B' & C'). rewrite <- E in *. exists k. split; auto.
        split; [apply I0; auto|]. split; [apply I0; auto|]. exists false.
        split; [apply U0; auto|]. split; [apply U0; auto|]. split; [apply C0; auto|].
        split; [apply C0; auto|]. split; [discriminate|]. intros H. exfalso.
        apply IC in HO. apply (combinations2_in _ b bp ND). auto.
    - right. split; apply I0; rewrite E.
      + apply num_absent; auto; try discriminate.
      + apply num_absent; auto; try discriminate. now rewrite sel_sym. }
  constructor.
  - unfold states. simpl. now rewrite O1.
  - unfold states. simpl. rewrite NC. replace (Z.of_nat (n + 1)) with (Z.of_nat n + 1)%Z by lia. now rewrite O2.
  - intros c Hc. destruct (zc c Hc) as (k & ->). rewrite ST. eapply so_block_nodup; eauto.
  - intros c c' b Hc Hc'. destruct (zc c Hc) as (k & ->). destruct (zc c' Hc') as (k' & ->). rewrite !ST.
    intros A B. f_equal. eapply so_same_block; eauto.
  - intros c b Hc. destruct (zc c Hc) as (k & ->). rewrite ST. intros A.
    destruct (so_in _ _ _ _ _ SO A). simpl. rewrite NC. lia.
  - simpl. rewrite E. rewrite dm_npauli_eq by auto. rewrite dm_ndm0_eq by auto. lia.
  - exact F14.
  - intros b c Hc Hb. destruct (zc c Hc) as (k & ->). rewrite ST in Hb.
    destruct (num_diag KDM (ix_of name n) qn qi (n + 1) d0 _ SO Hix b k Hb) as (j & J & A & B & C).
    rewrite <- E in *. rewrite (I0 _ _ _ _ A). simpl. split; [lia|]. split; [apply U0; auto|apply C0; auto].
  - intros b bp c Hc Hb Hbp Hne. destruct (zc c Hc) as (k & ->). rewrite ST in *.
    destruct (NUM b bp k Hb Hbp Hne) as [(j & J & A & B & u & U1 & U2 & C1 & C2 & _)|[A B]].
    + rewrite A, B. split; auto. intros _. simpl. split; [lia|]. rewrite U1, U2, C1, C2. auto.
    + rewrite A, B. split; auto. congruence.
  - intros b bp c b' bp' c' Hc Hc' Hb Hbp Hb' Hbp' EQ NE.
    destruct (zc c Hc) as (k & ->). destruct (zc c' Hc') as (k' & ->). rewrite ST in *.
    assert (G : forall x y q, In x (nth q (lst ++ [[]]) []) -> In y (nth q (lst ++ [[]]) []) ->
       get_ind_dm0 dm x y q = Some (ind0 (lay_of dm) x y (Z.of_nat q))).
    { intros x y q Hx Hy. destruct (C07_slots KDM n name si dm Hn R0) as (B1 & _ & _ & B4).
      unfold get_ind_dm0, ind0. rewrite (slot_at_dm n name si dm Hn R0). simpl.
      apply nth_error_nth'. unfold mapdm0.
      rewrite (writes_length _ (ev_slot dm) (fun e => Z.of_nat (e_cnt e))), repeat_length.
      apply B1. unfold element. rewrite !CON, KD. repeat split; auto. discriminate. }
    destruct (num_inj KDM (ix_of name n) qn qi (n + 1) d0 _ SO Hix b bp k b' bp' k' (ind0 (lay_of dm) b bp (Z.of_nat k))) as (A & B); auto; try discriminate.
    + rewrite <- E. auto.
    + rewrite <- E, EQ. auto.
    + subst. split; auto. destruct B as [B|(_ & B)]; auto.
  - intros k Hk. simpl in Hk. destruct (num_inverse KDM (ix_of name n) qn qi (n + 1) d0 _ SO Hix k) as (b & bp & c & H1 & H2 & H3 & H4 & H5 & H6).
    + rewrite <- E. assert (dm_npauli dm <= dm_ndm0 dm); [|lia].
      rewrite E. rewrite dm_npauli_eq by auto. rewrite dm_ndm0_eq by auto. lia.
    + rewrite <- E in *. apply H6 in Hk. subst bp. exists b, (Z.of_nat c). rewrite ST. split; [lia|]. split; auto.
  - intros k Hk. simpl in Hk. destruct (num_inverse KDM (ix_of name n) qn qi (n + 1) d0 _ SO Hix k) as (b & bp & c & H1 & H2 & H3 & H4 & H5 & H6).
    + rewrite <- E. lia.
    + rewrite <- E in *. exists b, bp, (Z.of_nat c). rewrite ST. split; [lia|]. split; auto. split; auto.
      split; [intros X; apply H6 in X; lia|]. split; auto.
  - intros b bp c Hc Hb Hbp Hne Hi. destruct (zc c Hc) as (k & ->). rewrite ST in *.
    destruct (NUM b bp k Hb Hbp Hne) as [(j & J & A & B & u & U1 & U2 & C1 & C2 & W)|[A B]]; [|congruence].
    now rewrite U1.
  - intros c b q Hq. destruct (zc q Hq) as (k & ->). replace (Z.of_nat k + 1)%Z with (Z.of_nat (S k)) by lia.
    rewrite !states_nat, ind1_dm. apply P1.
  - intros c b q c' b' q' Hq Hq'. destruct (zc q Hq) as (k & ->). destruct (zc q' Hq') as (k' & ->).
    replace (Z.of_nat k + 1)%Z with (Z.of_nat (S k)) by lia.
    replace (Z.of_nat k' + 1)%Z with (Z.of_nat (S k')) by lia.
    rewrite !states_nat, !ind1_dm. intros A B C D EE.
    destruct (P2 _ _ _ _ _ _ A B C D EE) as (-> & -> & ->). auto.
Qed.
