(** Property C40: remove_coherences. *)
From Coq Require Import String List Arith Lia ZArith Bool Permutation QArith Qabs.
From Verif Require Import Base Bits Indexing IndexingProofs RemoveProofs Binom SsqProofs Qn
  PropIndexing DMIndex DMIndexProofs DMReach PropDMIndex Layout Coherences.
Import ListNotations.
Open Scope nat_scope.
Local Notation length := List.length.

(** The first call after any state selection. *)
Theorem C40_remove_coherences_partial : forall n name si dm E dE, 1 <= n -> ix_of name n <> IxSsq ->
  reach KDM n name si dm -> 1 <= dm_npauli dm -> (0 <= dE)%Q ->
  exists L, remove_coherences (qfar E dE) (lay_of dm) = Some L /\
  (* same states *)
  (forall c, states L c = states (lay_of dm) c) /\
  (* exactly the elements whose energies differ by more than dE are excluded *)
  (forall b bp c, In b (considered dm c) -> In bp (considered dm c) ->
     (ind0 L b bp (Z.of_nat c) = (-1)%Z <->
      get_ind_dm0 dm b bp c = Some (-1)%Z \/ (dE < Qabs (E b - E bp))%Q)) /\
  (* diagonal elements keep their numbers *)
  (forall b c, In b (considered dm c) -> get_ind_dm0 dm b b c = Some (ind0 L b b (Z.of_nat c))) /\
  ly_npauli L = dm_npauli dm /\
  (* the remaining numbers are 0 .. ndm0-1, one for each pair, in the old order *)
  (forall b bp c, In b (considered dm c) -> In bp (considered dm c) -> ind0 L b bp (Z.of_nat c) <> (-1)%Z ->
     (0 <= ind0 L b bp (Z.of_nat c) < Z.of_nat (ly_ndm0 L))%Z /\ ind0 L bp b (Z.of_nat c) = ind0 L b bp (Z.of_nat c)) /\
  (forall k, k < ly_ndm0 L -> exists b bp c, In b (considered dm c) /\ In bp (considered dm c) /\
     ind0 L b bp (Z.of_nat c) = Z.of_nat k) /\
  (forall b bp c b' bp' c' k k', In b (considered dm c) -> In bp (considered dm c) ->
     In b' (considered dm c') -> In bp' (considered dm c') ->
     ind0 L b bp (Z.of_nat c) <> (-1)%Z -> ind0 L b' bp' (Z.of_nat c') <> (-1)%Z ->
     get_ind_dm0 dm b bp c = Some k -> get_ind_dm0 dm b' bp' c' = Some k' ->
     ((k < k')%Z <-> (ind0 L b bp (Z.of_nat c) < ind0 L b' bp' (Z.of_nat c'))%Z)) /\
  ly_ndm0r L = 2 * ly_ndm0 L - ly_npauli L /\
  layout L.
Proof.
  intros n name si dm E dE Hn Hix R Hp HE.
  pose proof (layout_reach n name si dm Hn Hix R) as LO. pose proof (fresh_reach n name si dm Hn Hix R) as FL.
  set (far := qfar E dE). pose proof (qfar_sym E dE) as FS. pose proof (fun b => qfar_diag E dE b HE) as FD.
  destruct (remove_result far FS FD (lay_of dm) LO FL Hp) as (m2 & RM & _).
  match type of RM with _ = Some ?x => set (L := x) in * end.
  exists L. split; auto.
  destruct (rm_fields far FS FD (lay_of dm) LO FL Hp L RM) as (F1 & F2 & F3 & F4 & F5 & ST & U & CJ & I1 & I0).
  pose proof (layout_removed far FS FD (lay_of dm) LO FL Hp L RM) as LO'.
  assert (GI : forall b bp c, In b (considered dm c) -> In bp (considered dm c) ->
     get_ind_dm0 dm b bp c = Some (ind0 (lay_of dm) b bp (Z.of_nat c))).
  { intros b bp c Hb Hbp. destruct (C07_slots KDM n name si dm Hn R) as (B1 & _).
    pose proof (reach_kind n name si dm Hn R) as (KD & _).
    unfold get_ind_dm0, ind0. rewrite (slot_at_dm n name si dm Hn R). simpl. apply nth_error_nth'. unfold mapdm0.
    rewrite (writes_length _ (ev_slot dm) (fun e => Z.of_nat (e_cnt e))), repeat_length.
    apply B1. unfold element. rewrite KD. repeat split; auto. discriminate. }
  assert (IS : forall b c, In b (considered dm c) -> In b (states L (Z.of_nat c))).
  { intros. now rewrite ST, states_nat. }
  assert (IS' : forall b c, In b (considered dm c) -> In b (states (lay_of dm) (Z.of_nat c))).
  { intros. now rewrite states_nat. }
  assert (Z0 : forall c, (0 <= Z.of_nat c)%Z) by (intros; lia).
  split; [exact ST|]. split; [|split; [|split; [exact F2|split; [|split; [|split; [|split; [|exact LO']]]]]]].
  - intros b bp c Hb Hbp. rewrite GI by auto.
    rewrite (removed_exactly far FS FD (lay_of dm) LO FL Hp L RM) by auto. unfold far. rewrite qfar_spec.
    split; (intros [H|H]; [left|right; auto]); congruence.
  - intros b c Hb. rewrite GI, I0 by auto. f_equal. destruct (lo_diag _ LO b (Z.of_nat c) (Z0 c) (IS' b c Hb)) as (B & _).
    unfold new_ind. destruct (Z.eqb_spec (ind0 (lay_of dm) b b (Z.of_nat c)) (-1)); [lia|].
    pose proof (keep_diag far FS FD (lay_of dm) LO FL) as KD.
    rewrite KD by lia. rewrite rank_all by (intros; apply KD; lia). lia.
  - intros b bp c Hb Hbp NE. destruct (Nat.eq_dec b bp) as [<-|Hne].
    + destruct (lo_diag _ LO' b (Z.of_nat c) (Z0 c) (IS b c Hb)) as (B & _). pose proof (lo_le _ LO'). split; auto. lia.
    + destruct (lo_off _ LO' b bp (Z.of_nat c) (Z0 c) (IS b c Hb) (IS bp c Hbp) Hne) as (B & B').
      destruct (B' NE). split; auto. lia.
  - intros k Hk. destruct (Nat.lt_ge_cases k (ly_npauli L)) as [H|H].
    + destruct (lo_surj _ LO' k H) as (b & c & Hc & Hb & EQ). destruct (zc c Hc) as (q & ->).
      rewrite ST, states_nat in Hb. exists b, b, q. auto.
    + destruct (lo_surj2 _ LO' k (conj H Hk)) as (b & bp & c & Hc & Hb & Hbp & _ & EQ & _). destruct (zc c Hc) as (q & ->).
      rewrite ST, states_nat in *. exists b, bp, q. auto.
  - intros b bp c b' bp' c' k k' Hb Hbp Hb' Hbp' N1 N2. rewrite !GI by auto. intros G1 G2.
    injection G1 as <-. injection G2 as <-.
    assert (NN : forall x y z, In x (considered dm z) -> In y (considered dm z) -> ind0 L x y (Z.of_nat z) <> (-1)%Z ->
      exists k, ind0 (lay_of dm) x y (Z.of_nat z) = Z.of_nat k /\ keep far (lay_of dm) k = true /\
                ind0 L x y (Z.of_nat z) = Z.of_nat (rank far (lay_of dm) k)).
    { intros x y z Hx Hy N. rewrite I0 in *. pose proof (ind0_dom (lay_of dm) FL x y (Z.of_nat z) (Z0 z) (IS' x z Hx) (IS' y z Hy)) as D.
      unfold new_ind in *. destruct (Z.eqb_spec (ind0 (lay_of dm) x y (Z.of_nat z)) (-1)); [congruence|].
      destruct (keep far (lay_of dm) (Z.to_nat (ind0 (lay_of dm) x y (Z.of_nat z)))) eqn:KK; [|congruence].
      exists (Z.to_nat (ind0 (lay_of dm) x y (Z.of_nat z))). repeat split; auto; lia. }
    destruct (NN _ _ _ Hb Hbp N1) as (j & E1 & K1 & R1). destruct (NN _ _ _ Hb' Hbp' N2) as (j' & E2 & K2 & R2).
    rewrite E1, E2, R1, R2. rewrite <- !Nat2Z.inj_lt. split.
    + intros H. now apply rank_lt.
    + intros H. destruct (Nat.lt_ge_cases j j'); auto. pose proof (rank_le far (lay_of dm) j' j H0). lia.
  - rewrite F4, F2, F3. reflexivity.
Qed.
Print Assumptions C40_remove_coherences_partial.

(** A second call reads the energies of the wrong states, because inddm0 is not renumbered:
    three levels, 'charge', one-electron energies 0, 5, 6 and two-electron energies 0, 1, 2.
    The first call (dE = 3) removes (1,2) and (1,3); a second call with dE = 3/2 should exclude the pair
    of two-electron states with energies 0 and 2 and keep those that differ by 1. *)
Definition two_E (b : nat) : Q := match b with 2 => 5 | 3 => 6 | 5 => 1 | 6 => 2 | _ => 0 end.
Definition two_L : Lay := lay_of (snd (call_init KDM 3 "charge")).
Theorem C40_second_call_refuted :
  exists L1 L2, remove_coherences (qfar two_E 3) two_L = Some L1 /\
    remove_coherences (qfar two_E (3 # 2)) L1 = Some L2 /\
    (* differ by 2 > 3/2, not excluded; differ by 1 < 3/2, excluded *)
    exists b bp c b' bp' c', In b (states L1 c) /\ In bp (states L1 c) /\ In b' (states L1 c') /\ In bp' (states L1 c') /\
      (3 # 2 < Qabs (two_E b - two_E bp))%Q /\ ind0 L2 b bp c <> (-1)%Z /\
      (Qabs (two_E b' - two_E bp') < 3 # 2)%Q /\ ind0 L1 b' bp' c' <> (-1)%Z /\ ind0 L2 b' bp' c' = (-1)%Z.
Proof.
  destruct (remove_coherences (qfar two_E 3) two_L) as [L1|] eqn:E1; [|vm_compute in E1; discriminate].
  vm_compute in E1. injection E1 as <-.
  match goal with |- exists L1 L2, Some ?x = Some L1 /\ _ => exists x end.
  match goal with |- exists L2, _ /\ remove_coherences ?f ?x = Some L2 /\ _ =>
    destruct (remove_coherences f x) as [L2|] eqn:E2; [|vm_compute in E2; discriminate] end.
  vm_compute in E2. injection E2 as <-. eexists. split; [reflexivity|]. split; [reflexivity|].
  exists 4, 6, 2%Z, 2, 3, 1%Z. vm_compute. repeat split; auto; discriminate.
Qed.
Print Assumptions C40_second_call_refuted.

(** With a negative dE the diagonal elements go as well (the docstring gives no range for dE), and the numbers
    that remain are not 0..ndm0-1. *)
Theorem C40_negative_refuted : exists L, remove_coherences (qfar two_E (- 1)) two_L = Some L /\
  ind0 L 0 0 0 = (-1)%Z /\ ind0 L 7 7 3 = (-1)%Z /\ ly_ndm0 L = 1 /\ ly_npauli L = 8.
Proof.
  destruct (remove_coherences (qfar two_E (- 1)) two_L) as [L1|] eqn:E1; [|vm_compute in E1; discriminate].
  vm_compute in E1. injection E1 as <-. eexists. split; [reflexivity|]. vm_compute. auto.
Qed.
Print Assumptions C40_negative_refuted.

Example C40_case : exists L, remove_coherences (qfar two_E 3) two_L = Some L /\
  (ly_npauli L, ly_ndm0 L, ly_ndm0r L) = (8, 12, 16) /\
  map (fun p => ind0 L (fst p) (snd p) 1) [(1, 2); (1, 3); (2, 3)] = [-1; -1; 8]%Z /\
  map (fun p => ind0 L (fst p) (snd p) 2) [(4, 5); (4, 6); (5, 6)] = [9; 10; 11]%Z.
Proof.
  destruct (remove_coherences (qfar two_E 3) two_L) as [L1|] eqn:E1; [|vm_compute in E1; discriminate].
  vm_compute in E1. injection E1 as <-. eexists. split; [reflexivity|]. vm_compute. auto.
Qed.
