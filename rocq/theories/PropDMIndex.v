(** Properties C07-C12: density-matrix element numbering. *)
From Coq Require Import String List Arith Lia ZArith Bool Permutation Factorial.
From Verif Require Import Base Bits Indexing IndexingProofs RemoveProofs Binom SsqProofs Qn
  PropIndexing DMIndex DMIndexProofs DMReach.
Import ListNotations.
Open Scope nat_scope.
Local Notation length := List.length.

(** Vocabulary.  [considered dm c]: the states of charge c that take part in the calculation. *)
Definition considered (dm : DMI) (c : nat) : list nat := nth c (dm_statesdm dm) [].
(** an element rho_{b,bp}; the diagonal-only class has just the elements with b = bp *)
Definition element (dm : DMI) (b bp c : nat) : Prop :=
  In b (considered dm c) /\ In bp (considered dm c) /\ (dm_kind dm = KPauli -> bp = b).
(** 'sz': coherences only between states of equal spin projection *)
Definition coherent (si : SI) (b bp : nat) : Prop :=
  si_indexing si = IxSz ->
  exists s s', get_state si b = Some s /\ get_state si bp = Some s' /\ up_minus_down s = up_minus_down s'.

(** a reachable object shows the states the caller selected, each with its charge *)
Theorem considered_charge : forall kd n name si dm, 1 <= n -> reach kd n name si dm ->
  forall c k, In k (considered dm c) -> c <= n /\ exists s, get_state si k = Some s /\ electrons s = c.
Proof.
  intros kd n name si dm Hn R c k Hk. apply reach_reached in R; auto.
  destruct (rc_make _ _ _ _ _ R) as (qn & qi & d0 & lst & E & L & SEL & SO & HQ).
  pose proof (dm_fields kd (ix_of name n) qn qi (n + 1) d0 (lst ++ [[]])) as F.
  rewrite <- E in F. destruct F as (F1 & F2 & F3 & _). unfold considered in Hk.
  rewrite F3, nth_app_nil in Hk.
  destruct SEL as (S1 & S2 & S3). rewrite (g_n _ _ _ (rc_good _ _ _ _ _ R)) in *.
  destruct (Nat.lt_ge_cases n c) as [Hc|Hc].
  - rewrite S2 in Hk by auto. destruct Hk.
  - split; auto. now apply S3.
Qed.

(** *** C07 *)
Theorem C07_slots : forall kd n name si dm, 1 <= n -> reach kd n name si dm ->
  (forall b bp c, element dm b bp c -> dm0_slot dm b bp c < dm0_size dm) /\
  (forall b bp c b' bp' c', element dm b bp c -> element dm b' bp' c' ->
     dm0_slot dm b bp c = dm0_slot dm b' bp' c' -> b = b' /\ bp = bp' /\ c = c') /\
  (forall k, k < dm0_size dm -> exists b bp c, element dm b bp c /\ dm0_slot dm b bp c = k) /\
  dm0_size dm = (match kd with KPauli => dm_npauli_ dm | _ => dm_ndm0_ dm end).
Proof.
  intros kd n name si dm Hn R. apply reach_reached in R; auto.
  destruct (rc_make _ _ _ _ _ R) as (qn & qi & d0 & lst & E & L & SEL & SO & HQ).
  pose proof (dm_fields kd (ix_of name n) qn qi (n + 1) d0 (lst ++ [[]])) as F.
  rewrite <- E in F. destruct F as (F1 & F2 & F3 & _).
  rewrite <- L in SO. unfold element, considered. rewrite F1, F3.
  assert (EQ : forall b bp c, In b (nth c (lst ++ [[]]) []) ->
     dm0_slot dm b bp c = slot0 kd (n + 1) d0 (lst ++ [[]]) b bp c).
  { intros b bp c Hb. rewrite E. apply dm0_slot_eq; auto. apply (so_in _ _ _ _ _ SO Hb). }
  split; [|split; [|split]].
  - intros b bp c (H1 & H2 & H3). rewrite EQ by auto. rewrite E. now apply slot0_bound.
  - intros b bp c b' bp' c' (H1 & H2 & H3) (H4 & H5 & H6) ES. rewrite !EQ in ES by auto.
    eapply (slot0_inj kd (ix_of name n) qn qi (n + 1) d0 (lst ++ [[]]) SO); eauto.
  - intros k Hk. rewrite E in Hk. apply slot0_surj in Hk; auto.
    destruct Hk as (b & bp & c & H1 & H2 & H3 & H4). exists b, bp, c. rewrite EQ by auto. auto.
  - unfold dm0_size. now rewrite F1.
Qed.
Print Assumptions C07_slots.

(** *** C09 *)
Theorem C09_first_order_slots : forall kd n name si dm, 1 <= n -> kd <> KPauli -> reach kd n name si dm ->
  (forall c b q, In c (considered dm (S q)) -> In b (considered dm q) -> get_ind_dm1 dm c b q < dm_ndm1 dm) /\
  (forall c b q c' b' q', In c (considered dm (S q)) -> In b (considered dm q) ->
     In c' (considered dm (S q')) -> In b' (considered dm q') ->
     get_ind_dm1 dm c b q = get_ind_dm1 dm c' b' q' -> c = c' /\ b = b' /\ q = q') /\
  (forall k, k < dm_ndm1 dm -> exists c b q, In c (considered dm (S q)) /\ In b (considered dm q) /\
     get_ind_dm1 dm c b q = k).
Proof.
  intros kd n name si dm Hn Hkd R. apply reach_reached in R; auto.
  destruct (rc_make _ _ _ _ _ R) as (qn & qi & d0 & lst & E & L & SEL & SO & HQ).
  pose proof (dm_fields kd (ix_of name n) qn qi (n + 1) d0 (lst ++ [[]])) as F.
  rewrite <- E in F. destruct F as (F1 & F2 & F3 & F4 & F5 & F6 & _ & _ & _ & _ & _ & _ & _ & _ & F15).
  rewrite <- L in SO. unfold considered. rewrite F3.
  assert (EQ : forall c b q, In c (nth (S q) (lst ++ [[]]) []) ->
     get_ind_dm1 dm c b q = slot1 (n + 1) d0 (lst ++ [[]]) c b q).
  { intros c b q Hc. rewrite E. apply dm1_slot_eq; auto. destruct (so_in _ _ _ _ _ SO Hc). lia. }
  assert (ES : dm_ndm1 dm = psum (fun j => length (nth j (lst ++ [[]]) []) * length (nth (S j) (lst ++ [[]]) [])) (n + 1 - 1)).
  { rewrite F15, F6. destruct kd; congruence. }
  rewrite ES. split; [|split].
  - intros c b q Hc Hb. rewrite EQ by auto.
    eapply Nat.lt_le_trans; [apply (slot1_range (n+1) d0 _ SO c b q Hc Hb)|].
    apply psum_mono. destruct (so_in _ _ _ _ _ SO Hc). lia.
  - intros c b q c' b' q' H1 H2 H3 H4 EE. rewrite !EQ in EE by auto. eapply slot1_inj; eauto.
  - intros k Hk. apply slot1_surj with (dict0 := d0) in Hk; auto.
    destruct Hk as (c & b & q & H0 & H1 & H2 & H3). exists c, b, q. rewrite EQ by auto. auto.
Qed.
Print Assumptions C09_first_order_slots.

(** *** C11 *)
Theorem C11_outer_sectors : forall kd n name si dm, 1 <= n -> reach kd n name si dm ->
  py_nth (dm_statesdm dm) (-1) = Some [] /\
  py_nth (dm_statesdm dm) (Z.of_nat n + 1) = Some [] /\
  (forall c, c <= n -> py_nth (dm_statesdm dm) (Z.of_nat c) = Some (considered dm c)).
Proof.
  intros kd n name si dm Hn R. apply reach_reached in R; auto.
  destruct (rc_make _ _ _ _ _ R) as (qn & qi & d0 & lst & E & L & SEL & SO & HQ).
  pose proof (dm_fields kd (ix_of name n) qn qi (n + 1) d0 (lst ++ [[]])) as F.
  rewrite <- E in F. destruct F as (F1 & F2 & F3 & _). unfold considered. rewrite F3.
  pose proof (so_len _ _ _ SO) as HL.
  split; [apply py_nth_last|]. split.
  - replace (Z.of_nat n + 1)%Z with (Z.of_nat (n + 1)) by lia. rewrite py_nth_nat.
    rewrite nth_error_of_nth with (d := []) by auto. f_equal. apply (so_empty _ _ _ SO). lia.
  - intros c Hc. rewrite py_nth_nat. apply nth_error_of_nth. lia.
Qed.
Print Assumptions C11_outer_sectors.

(** *** C08 *)
Lemma sel_coherent : forall kd n name si dm qn, 1 <= n -> reached kd n name si dm ->
  (ix_of name n = IxSz -> forall k, qn k = ind_qn si k) ->
  forall b bp s s', get_state si b = Some s -> get_state si bp = Some s' ->
  (sel (ix_of name n) qn b bp = true <-> coherent si b bp).
Proof.
  intros kd n name si dm qn Hn R HQ b bp s s' Hb Hbp.
  pose proof (rc_good _ _ _ _ _ R) as G. unfold coherent. rewrite (g_ix _ _ _ G).
  unfold sel. destruct (ix_of name n) eqn:EX; try (split; [intros _ H; discriminate|auto]).
  destruct (g_qn _ _ _ G EX) as [[I1 I2] M].
  destruct (g_live _ _ _ G) as (live & OK & _ & _).
  assert (V : forall k s, get_state si k = Some s -> qn_at qn k 1 = up_minus_down s).
  { intros k t Hk. assert (Hlt : k < si_nmany si).
    { rewrite (ok_nmany _ _ OK : si_nmany si = length (si_i si)). unfold get_state in Hk.
      apply nth_error_Some. intros E. rewrite E in Hk. discriminate. }
    apply I2 in Hlt. destruct Hlt as (q & Hq). pose proof Hq as Hq'. apply I1 in Hq'.
    destruct (M _ _ Hq') as (t' & T1 & _ & T3). assert (t' = t) by congruence. subst t'.
    unfold qn_at. rewrite HQ, Hq by auto. rewrite T3 by (left; rewrite (g_ix _ _ _ G); auto).
    symmetry. apply umd_sz. rewrite (g_n _ _ _ G).
    unfold get_state in Hk. destruct (nth_error (si_i si) k) as [x|] eqn:Ex; [|discriminate].
    injection Hk as <-. rewrite (g_n _ _ _ G). apply occ_length.
    - auto.
    - apply nth_error_In in Ex. apply (ok_i_in _ _ OK) in Ex. simpl in Ex. rewrite (g_n _ _ _ G) in Ex. tauto. }
  rewrite Z.eqb_eq, (V b s Hb), (V bp s' Hbp). split.
  - intros E _. exists s, s'. auto.
  - intros H. destruct (H eq_refl) as (t & t' & T1 & T2 & T3). congruence.
Qed.

(** everything C08 needs about the recorded calls, for the three classes at once *)
Section C08.
Variables (kd : kind) (ixs : ix) (qn : nat -> option (list Z)) (qi : list Z -> option nat).
Variables (nc : nat) (d0 : list nat) (L : list (list nat)).
Hypothesis SO : states_ok nc (length d0) L.
Hypothesis Hix : ixs <> IxSsq.
Let dm := set_statesdm' kd ixs qn qi nc d0 L.
Let D := diag_items nc L.
Let O := off_items kd ixs qn nc L.

Lemma num_diag : forall b c, In b (nth c L []) -> exists k, k < dm_npauli dm /\
  get_ind_dm0 dm b b c = Some (Z.of_nat k) /\ get_bool_dm0 dm b b c = Some true /\ get_conj_dm0 dm b b c = Some true.
Proof.
  intros b c Hb. assert (HD : In (c, b) D) by (apply (D_in nc d0 L SO); auto).
  apply In_nth_error in HD. destruct HD as (j & Hj). exists j.
  assert (HE : In (mkEv j b b c true true) (dm_log dm)).
  { apply log_in; auto. left. exists j, c, b. auto. }
  destruct (get_entered kd ixs qn qi nc d0 L SO Hix _ HE) as (A & B & C). simpl in *.
  split; [|auto]. unfold dm. rewrite dm_npauli_eq by auto. apply nth_error_Some. unfold D in Hj. congruence.
Qed.

Lemma num_off : forall b bp c, In (c, (b, bp)) O -> exists k, dm_npauli dm <= k < dm_ndm0 dm /\
  get_ind_dm0 dm b bp c = Some (Z.of_nat k) /\ get_bool_dm0 dm b bp c = Some true /\ get_conj_dm0 dm b bp c = Some true /\
  (kd = KDM -> get_ind_dm0 dm bp b c = Some (Z.of_nat k) /\ get_bool_dm0 dm bp b c = Some false /\
               get_conj_dm0 dm bp b c = Some false).
Proof.
  intros b bp c HO. apply In_nth_error in HO. destruct HO as (j & Hj). exists (length D + j).
  assert (HE : In (mkEv (length D + j) b bp c true true) (dm_log dm)).
  { apply log_in; auto. right. exists j, c, b, bp. auto. }
  destruct (get_entered kd ixs qn qi nc d0 L SO Hix _ HE) as (A & B & C). simpl in *.
  split.
  { unfold dm. rewrite dm_npauli_eq, dm_ndm0_eq by auto. fold D O.
    assert (j < length O) by (apply nth_error_Some; congruence). lia. }
  split; auto. split; auto. split; auto. intros Hk.
  assert (HE' : In (mkEv (length D + j) bp b c false false) (dm_log dm)).
  { apply log_in; auto. right. exists j, c, b, bp. auto. }
  destruct (get_entered kd ixs qn qi nc d0 L SO Hix _ HE') as (A' & B' & C'). simpl in *. auto.
Qed.

Lemma num_absent : forall b bp c, In b (nth c L []) -> In bp (nth c L []) -> b <> bp -> kd <> KPauli ->
  sel ixs qn b bp = false -> get_ind_dm0 dm b bp c = Some (-1)%Z /\ get_bool_dm0 dm b bp c = Some false.
Proof.
  intros b bp c Hb Hbp Hne Hk Hs. apply get_absent; auto.
  - intros; congruence.
  - intros e He (E1 & E2 & E3). apply log_in in He; auto.
    destruct He as [(j & c' & b' & H & ->)|(j & c' & b' & bp' & H & He)]; simpl in *; [congruence|].
    apply nth_error_In in H. apply (O_in kd ixs qn qi nc d0 L SO) in H. destruct H as (_ & _ & _ & HS).
    destruct He as [->|[_ ->]]; simpl in *; subst; [congruence|]. rewrite sel_sym in HS. congruence.
Qed.

(** an element whose number is not -1 was entered *)
Lemma num_entered : forall b bp c k, In b (nth c L []) -> In bp (nth c L []) -> (kd = KPauli -> bp = b) ->
  get_ind_dm0 dm b bp c = Some k -> k <> (-1)%Z ->
  exists e, In e (dm_log dm) /\ e_b e = b /\ e_bp e = bp /\ e_ch e = c /\ k = Z.of_nat (e_cnt e).
Proof.
  intros b bp c k Hb Hbp HP Hg Hk.
  destruct (existsb (fun e => (e_b e =? b) && (e_bp e =? bp) && (e_ch e =? c))%bool (dm_log dm)) eqn:X.
  - apply existsb_exists in X. destruct X as (e & He & X). apply andb_prop in X. destruct X as [X X3].
    apply andb_prop in X. destruct X as [X1 X2]. apply Nat.eqb_eq in X1, X2, X3.
    exists e. repeat (split; auto).
    destruct (get_entered kd ixs qn qi nc d0 L SO Hix e He) as (A & _). rewrite X1, X2, X3 in A.
    unfold dm in Hg. congruence.
  - exfalso. assert (HN : forall e, In e (dm_log dm) -> ~ (e_b e = b /\ e_bp e = bp /\ e_ch e = c)).
    { intros e He (E1 & E2 & E3). assert (existsb (fun e => (e_b e =? b) && (e_bp e =? bp) && (e_ch e =? c))%bool (dm_log dm) = true); [|congruence].
      apply existsb_exists. exists e. split; auto. rewrite E1, E2, E3, !Nat.eqb_refl. reflexivity. }
    destruct (get_absent kd ixs qn qi nc d0 L SO Hix b bp c Hb Hbp HP HN) as [A _]. unfold dm in Hg. congruence.
Qed.

Lemma num_inj : forall b bp c b' bp' c' k, In b (nth c L []) -> In bp (nth c L []) ->
  In b' (nth c' L []) -> In bp' (nth c' L []) -> (kd = KPauli -> bp = b /\ bp' = b') ->
  get_ind_dm0 dm b bp c = Some k -> get_ind_dm0 dm b' bp' c' = Some k -> k <> (-1)%Z ->
  c = c' /\ ((b = b' /\ bp = bp') \/ (kd = KDM /\ b = bp' /\ bp = b')).
Proof.
  intros b bp c b' bp' c' k H1 H2 H3 H4 HP G1 G2 Hk.
  destruct (num_entered b bp c k) as (e & He & E1 & E2 & E3 & E4); auto; try (intros Z; apply HP in Z; tauto).
  destruct (num_entered b' bp' c' k) as (e' & He' & E1' & E2' & E3' & E4'); auto; try (intros Z; apply HP in Z; tauto).
  assert (EC : e_cnt e = e_cnt e') by lia.
  apply log_in in He; auto. apply log_in in He'; auto. fold D O in He, He'.
  destruct He as [(j & x & y & N & Ee)|(j & x & y & z & N & He)];
  destruct He' as [(j' & x' & y' & N' & Ee')|(j' & x' & y' & z' & N' & He')].
  - subst e e'. simpl in *. subst. rewrite N in N'. injection N' as <- <-. auto.
  - exfalso. assert (j < length D) by (apply nth_error_Some; congruence).
    destruct He' as [->|[_ ->]]; subst e; simpl in EC; lia.
  - exfalso. assert (j' < length D) by (apply nth_error_Some; congruence).
    destruct He as [->|[_ ->]]; subst e'; simpl in EC; lia.
  - assert (j = j') by (destruct He as [->|[_ ->]]; destruct He' as [->|[_ ->]]; simpl in EC; lia).
    subst j'. rewrite N in N'. injection N' as <- <- <-.
    destruct He as [->|[Z ->]]; destruct He' as [->|[Z' ->]]; simpl in *; subst; auto.
Qed.

(** every number is used, and inddm0 gives its unique element *)
Lemma num_inverse : forall k, k < dm_ndm0 dm -> exists b bp c,
  In b (nth c L []) /\ In bp (nth c L []) /\ dict_get Nat.eqb k (inddm0 dm) = Some (b, bp) /\
  get_ind_dm0 dm b bp c = Some (Z.of_nat k) /\ get_bool_dm0 dm b bp c = Some true /\ (k < dm_npauli dm <-> b = bp).
Proof.
  intros k Hk. unfold dm in Hk. rewrite dm_ndm0_eq in Hk by auto. fold D O in Hk.
  assert (X : exists e, In e (dm_log dm) /\ e_dict e = true /\ e_cnt e = k /\ (k < length D <-> e_b e = e_bp e)).
  { destruct (Nat.lt_ge_cases k (length D)) as [H|H].
    - destruct (nth_error D k) as [[c b]|] eqn:N; [|apply nth_error_None in N; lia].
      exists (mkEv k b b c true true). split; [|simpl; tauto].
      apply log_in; auto. left. exists k, c, b. auto.
    - destruct (nth_error O (k - length D)) as [[c [b bp]]|] eqn:N; [|apply nth_error_None in N; lia].
      exists (mkEv k b bp c true true). split.
      + apply log_in; auto. right. exists (k - length D), c, b, bp. split; auto. left. f_equal. fold D. lia.
      + simpl. split; auto. split; auto. apply nth_error_In in N.
        apply (O_in kd ixs qn qi nc d0 L SO) in N. split; [lia|]. tauto. }
  destruct X as (e & He & X1 & X2 & X3).
  destruct (log_states kd ixs qn qi nc d0 L SO Hix e He) as [S1 S2].
  destruct (get_entered kd ixs qn qi nc d0 L SO Hix e He) as (A & B & _).
  exists (e_b e), (e_bp e), (e_ch e). split; auto. split; auto. split.
  - apply inddm0_get; auto. exists e. auto.
  - subst k. split; [exact A|]. split; [unfold dm; rewrite B; congruence|].
    unfold dm. rewrite dm_npauli_eq by auto. auto.
Qed.

Lemma num_inddm0_only : forall k p, dict_get Nat.eqb k (inddm0 dm) = Some p -> k < dm_ndm0 dm.
Proof.
  intros k [b bp] H. apply inddm0_get in H; auto. destruct H as (e & He & X1 & X2 & _).
  unfold dm. rewrite dm_ndm0_eq by auto. fold D O. apply log_in in He; auto.
  destruct He as [(j & x & y & N & Ee)|(j & x & y & z & N & He)].
  - assert (j < length D) by (apply nth_error_Some; unfold D; congruence). subst e. simpl in X2. lia.
  - assert (j < length O) by (apply nth_error_Some; unfold O; congruence).
    fold D in He. destruct He as [->|[_ ->]]; simpl in X2; lia.
Qed.
End C08.

(** StateIndexingDM: unordered pairs *)
Theorem C08_numbering_dm : forall n name si dm, 1 <= n -> ix_of name n <> IxSsq -> reach KDM n name si dm ->
  (* diagonal elements *)
  (forall b c, In b (considered dm c) -> exists k, k < dm_npauli dm /\
     get_ind_dm0 dm b b c = Some (Z.of_nat k) /\
     get_bool_dm0 dm b b c = Some true /\ get_conj_dm0 dm b b c = Some true) /\
  (* coherences that are kept: both orders share a number above npauli, exactly one is unique and
     that one is the one not conjugated *)
  (forall b bp c, In b (considered dm c) -> In bp (considered dm c) -> b <> bp -> coherent si b bp ->
     exists k, dm_npauli dm <= k < dm_ndm0 dm /\
       get_ind_dm0 dm b bp c = Some (Z.of_nat k) /\ get_ind_dm0 dm bp b c = Some (Z.of_nat k) /\
       exists u, get_bool_dm0 dm b bp c = Some u /\ get_bool_dm0 dm bp b c = Some (negb u) /\
                 get_conj_dm0 dm b bp c = Some u /\ get_conj_dm0 dm bp b c = Some (negb u)) /\
  (* the other coherences are excluded *)
  (forall b bp c, In b (considered dm c) -> In bp (considered dm c) -> b <> bp -> ~ coherent si b bp ->
     get_ind_dm0 dm b bp c = Some (-1)%Z /\ get_bool_dm0 dm b bp c = Some false) /\
  (* one number, one unordered pair *)
  (forall b bp c b' bp' c' k, element dm b bp c -> element dm b' bp' c' ->
     get_ind_dm0 dm b bp c = Some k -> get_ind_dm0 dm b' bp' c' = Some k -> k <> (-1)%Z ->
     c = c' /\ ((b = b' /\ bp = bp') \/ (b = bp' /\ bp = b'))) /\
  (* every number is used and inddm0 inverts the numbering *)
  (forall k, k < dm_ndm0 dm -> exists b bp c, element dm b bp c /\
     dict_get Nat.eqb k (inddm0 dm) = Some (b, bp) /\
     get_ind_dm0 dm b bp c = Some (Z.of_nat k) /\ get_bool_dm0 dm b bp c = Some true /\
     (k < dm_npauli dm <-> b = bp)) /\
  (forall k p, dict_get Nat.eqb k (inddm0 dm) = Some p -> k < dm_ndm0 dm).
Proof.
  intros n name si dm Hn Hix R0. pose proof (considered_charge _ _ _ _ _ Hn R0) as CC.
  apply reach_reached in R0; auto. pose proof R0 as R.
  destruct (rc_make _ _ _ _ _ R) as (qn & qi & d0 & lst & E & L & SEL & SO & HQ).
  pose proof (dm_fields KDM (ix_of name n) qn qi (n + 1) d0 (lst ++ [[]])) as F.
  rewrite <- E in F. destruct F as (F1 & F2 & F3 & _).
  rewrite <- L in SO. unfold element, considered in *. rewrite F1, F3 in *.
  assert (SC : forall b bp c, In b (nth c (lst ++ [[]]) []) -> In bp (nth c (lst ++ [[]]) []) ->
     (sel (ix_of name n) qn b bp = true <-> coherent si b bp)).
  { intros b bp c Hb Hbp. destruct (CC c b Hb) as (_ & s & Es & _). destruct (CC c bp Hbp) as (_ & s' & Es' & _).
    eapply sel_coherent; eauto. }
  rewrite E. split; [|split; [|split; [|split; [|split]]]].
  - intros b c Hb. apply num_diag; auto.
  - intros b bp c Hb Hbp Hne Hco. apply (SC b bp c) in Hco; auto.
    destruct (O_complete KDM (ix_of name n) qn qi (n + 1) d0 (lst ++ [[]]) SO c b bp) as [HO|HO];
      auto; try discriminate.
    + destruct (num_off KDM (ix_of name n) qn qi (n + 1) d0 _ SO Hix b bp c HO) as (k & K & A & B & C & X).
      destruct (X eq_refl) as (A' & B' & C'). exists k. split; auto. split; auto. split; auto.
      exists true. auto.
    + destruct (num_off KDM (ix_of name n) qn qi (n + 1) d0 _ SO Hix bp b c HO) as (k & K & A & B & C & X).
      destruct (X eq_refl) as (A' & B' & C'). exists k. split; auto. split; auto. split; auto.
      exists false. auto.
  - intros b bp c Hb Hbp Hne Hco. apply num_absent; auto; try discriminate.
    destruct (sel (ix_of name n) qn b bp) eqn:X; auto. exfalso. apply Hco. apply (SC b bp c); auto.
  - intros b bp c b' bp' c' k (H1 & H2 & _) (H3 & H4 & _) G1 G2 Hk.
    destruct (num_inj KDM (ix_of name n) qn qi (n + 1) d0 _ SO Hix b bp c b' bp' c' k) as (A & B); auto; try discriminate.
    split; auto. tauto.
  - intros k Hk. destruct (num_inverse KDM (ix_of name n) qn qi (n + 1) d0 _ SO Hix k Hk) as (b & bp & c & H).
    exists b, bp, c. split; [split; [tauto|split; [tauto|discriminate]]|tauto].
  - intros k p H. eapply num_inddm0_only; eauto.
Qed.
Print Assumptions C08_numbering_dm.

(** StateIndexingDMc: ordered pairs, nothing conjugated *)
Theorem C08_numbering_dmc : forall n name si dm, 1 <= n -> ix_of name n <> IxSsq -> reach KDMc n name si dm ->
  (forall b c, In b (considered dm c) -> exists k, k < dm_npauli dm /\
     get_ind_dm0 dm b b c = Some (Z.of_nat k) /\
     get_bool_dm0 dm b b c = Some true /\ get_conj_dm0 dm b b c = Some true) /\
  (forall b bp c, In b (considered dm c) -> In bp (considered dm c) -> b <> bp -> coherent si b bp ->
     exists k, dm_npauli dm <= k < dm_ndm0 dm /\
       get_ind_dm0 dm b bp c = Some (Z.of_nat k) /\
       get_bool_dm0 dm b bp c = Some true /\ get_conj_dm0 dm b bp c = Some true) /\
  (forall b bp c, In b (considered dm c) -> In bp (considered dm c) -> b <> bp -> ~ coherent si b bp ->
     get_ind_dm0 dm b bp c = Some (-1)%Z /\ get_bool_dm0 dm b bp c = Some false) /\
  (forall b bp c b' bp' c' k, element dm b bp c -> element dm b' bp' c' ->
     get_ind_dm0 dm b bp c = Some k -> get_ind_dm0 dm b' bp' c' = Some k -> k <> (-1)%Z ->
     c = c' /\ b = b' /\ bp = bp') /\
  (forall k, k < dm_ndm0 dm -> exists b bp c, element dm b bp c /\
     dict_get Nat.eqb k (inddm0 dm) = Some (b, bp) /\
     get_ind_dm0 dm b bp c = Some (Z.of_nat k) /\ get_bool_dm0 dm b bp c = Some true /\
     (k < dm_npauli dm <-> b = bp)) /\
  (forall k p, dict_get Nat.eqb k (inddm0 dm) = Some p -> k < dm_ndm0 dm).
Proof.
  intros n name si dm Hn Hix R0. pose proof (considered_charge _ _ _ _ _ Hn R0) as CC.
  apply reach_reached in R0; auto. pose proof R0 as R.
  destruct (rc_make _ _ _ _ _ R) as (qn & qi & d0 & lst & E & L & SEL & SO & HQ).
  pose proof (dm_fields KDMc (ix_of name n) qn qi (n + 1) d0 (lst ++ [[]])) as F.
  rewrite <- E in F. destruct F as (F1 & F2 & F3 & _).
  rewrite <- L in SO. unfold element, considered in *. rewrite F1, F3 in *.
  assert (SC : forall b bp c, In b (nth c (lst ++ [[]]) []) -> In bp (nth c (lst ++ [[]]) []) ->
     (sel (ix_of name n) qn b bp = true <-> coherent si b bp)).
  { intros b bp c Hb Hbp. destruct (CC c b Hb) as (_ & s & Es & _). destruct (CC c bp Hbp) as (_ & s' & Es' & _).
    eapply sel_coherent; eauto. }
  rewrite E. split; [|split; [|split; [|split; [|split]]]].
  - intros b c Hb. apply num_diag; auto.
  - intros b bp c Hb Hbp Hne Hco. apply (SC b bp c) in Hco; auto.
    assert (HO : In (c, (b, bp)) (off_items KDMc (ix_of name n) qn (n + 1) (lst ++ [[]]))) by (eapply O_dmc; eauto).
    destruct (num_off KDMc (ix_of name n) qn qi (n + 1) d0 _ SO Hix b bp c HO) as (k & K & A & B & C & _).
    exists k. auto.
  - intros b bp c Hb Hbp Hne Hco. apply num_absent; auto; try discriminate.
    destruct (sel (ix_of name n) qn b bp) eqn:X; auto. exfalso. apply Hco. apply (SC b bp c); auto.
  - intros b bp c b' bp' c' k (H1 & H2 & _) (H3 & H4 & _) G1 G2 Hk.
    destruct (num_inj KDMc (ix_of name n) qn qi (n + 1) d0 _ SO Hix b bp c b' bp' c' k) as (A & [B|(B & _)]);
      auto; discriminate.
  - intros k Hk. destruct (num_inverse KDMc (ix_of name n) qn qi (n + 1) d0 _ SO Hix k Hk) as (b & bp & c & H).
    exists b, bp, c. split; [split; [tauto|split; [tauto|discriminate]]|tauto].
  - intros k p H. eapply num_inddm0_only; eauto.
Qed.
Print Assumptions C08_numbering_dmc.

(** StateIndexingPauli: diagonal elements only *)
Theorem C08_numbering_pauli : forall n name si dm, 1 <= n -> ix_of name n <> IxSsq -> reach KPauli n name si dm ->
  (forall b c, In b (considered dm c) -> exists k, k < dm_npauli dm /\
     get_ind_dm0 dm b b c = Some (Z.of_nat k) /\ get_bool_dm0 dm b b c = Some true) /\
  (forall b c b' c', In b (considered dm c) -> In b' (considered dm c') ->
     get_ind_dm0 dm b b c = get_ind_dm0 dm b' b' c' -> c = c' /\ b = b') /\
  (forall k, k < dm_npauli dm -> exists b c, In b (considered dm c) /\ get_ind_dm0 dm b b c = Some (Z.of_nat k)).
Proof.
  intros n name si dm Hn Hix R. apply reach_reached in R; auto.
  destruct (rc_make _ _ _ _ _ R) as (qn & qi & d0 & lst & E & L & SEL & SO & HQ).
  pose proof (dm_fields KPauli (ix_of name n) qn qi (n + 1) d0 (lst ++ [[]])) as F.
  rewrite <- E in F. destruct F as (F1 & F2 & F3 & _).
  rewrite <- L in SO. unfold considered in *. rewrite F3 in *. rewrite E.
  split; [|split].
  - intros b c Hb. destruct (num_diag KPauli (ix_of name n) qn qi (n + 1) d0 _ SO Hix b c Hb) as (k & K).
    exists k. tauto.
  - intros b c b' c' Hb Hb' G.
    destruct (num_diag KPauli (ix_of name n) qn qi (n + 1) d0 _ SO Hix b c Hb) as (k & K1 & K2 & _).
    destruct (num_inj KPauli (ix_of name n) qn qi (n + 1) d0 _ SO Hix b b c b' b' c' (Z.of_nat k)) as (A & [B|(B & _)]);
      auto; try congruence; try lia.
  - intros k Hk.
    assert (Hk' : k < dm_ndm0 (set_statesdm' KPauli (ix_of name n) qn qi (n + 1) d0 (lst ++ [[]]))).
    { rewrite dm_npauli_eq in Hk by auto. rewrite dm_ndm0_eq by auto. lia. }
    destruct (num_inverse KPauli (ix_of name n) qn qi (n + 1) d0 _ SO Hix k Hk') as (b & bp & c & H1 & H2 & H3 & H4 & H5 & H6).
    apply H6 in Hk. subst bp. exists b, c. auto.
Qed.
Print Assumptions C08_numbering_pauli.

(** *** C10 *)
(** pairs (b, bp) of considered states of the same charge, and of neighbouring charges *)
Definition same_charge_pairs (dm : DMI) (n : nat) : list (nat * nat) :=
  flat_map (fun c => list_prod (considered dm c) (considered dm c)) (seq 0 (n + 1)).
Definition neighbour_pairs (dm : DMI) (n : nat) : list (nat * nat) :=
  flat_map (fun c => list_prod (considered dm (S c)) (considered dm c)) (seq 0 n).
Definition all_considered (dm : DMI) (n : nat) : list nat := flat_map (considered dm) (seq 0 (n + 1)).

Lemma flat_map_len : forall A B (f : A -> list B) l, length (flat_map f l) = sumn (map (fun x => length (f x)) l).
Proof. induction l; simpl; auto. rewrite app_length, IHl. auto. Qed.

Lemma block_size : forall n name c, 1 <= n -> c <= n ->
  length (nth c (si_chargelst (si_init n name)) []) = binom n c.
Proof.
  intros n name c Hn Hc.
  assert (E : length (nth c (construct_chargelst n) []) = binom n c).
  { rewrite construct_chargelst_spec, nth_map_seq by lia.
    rewrite <- count_allbits. rewrite <- (count_perm _ _ _ _ (bits_allbits n)).
    rewrite count_map. unfold count. f_equal. apply filter_ext_in. intros k Hk. apply in_seq in Hk.
    unfold occ_charge, occ. rewrite itb_bits by lia. reflexivity. }
  assert (E2 : length (nth c (enum_chargelst (construct_chargelst n)) []) = binom n c).
  { unfold enum_chargelst. rewrite enum_from_nth by (rewrite construct_chargelst_length; lia).
    rewrite seq_length. auto. }
  unfold si_init. destruct (ix_of name n); simpl; auto.
Qed.

Lemma psum_sum_upto : forall w n, psum w n = sum_upto n w.
Proof. reflexivity. Qed.

Lemma sum_squares : forall n, psum (fun c => binom n c * binom n c) (n + 1) = binom (2 * n) n.
Proof.
  intros. rewrite psum_sum_upto. replace (2 * n) with (n + n) by lia. rewrite <- (vandermonde n n n).
  replace (n + 1) with (S n) by lia. apply sum_upto_ext. intros k Hk.
  rewrite (binom_sym n (n - k)) by lia. repeat f_equal. lia.
Qed.

Lemma sum_neighbours : forall n, 1 <= n -> psum (fun c => binom n c * binom n (S c)) n = binom (2 * n) (n - 1).
Proof.
  intros n Hn. rewrite psum_sum_upto. replace (2 * n) with (n + n) by lia. rewrite <- (vandermonde n n (n - 1)).
  replace (S (n - 1)) with n by lia. apply sum_upto_ext. intros k Hk.
  rewrite (binom_sym n (n - 1 - k)) by lia. repeat f_equal. lia.
Qed.

Lemma ndm0_tot_binom : forall n, ndm0_tot n = binom (2 * n) n.
Proof.
  intros n. unfold ndm0_tot. rewrite central_fact. apply Nat.div_mul.
  pose proof (lt_O_fact n). nia.
Qed.

Lemma ndm1_tot_binom : forall n, 1 <= n -> ndm1_tot n = binom (2 * n) (n - 1).
Proof.
  intros n Hn. unfold ndm1_tot. rewrite ndm0_tot_binom.
  pose proof (binom_absorb (2 * n) (n - 1)) as A.
  replace (S (n - 1)) with n in A by lia. replace (n - 1 + 1) with n in A by lia.
  replace (n * binom (2 * n) n) with (binom (2 * n) (n - 1) * (n + 1)) by nia.
  apply Nat.div_mul. lia.
Qed.

Theorem C10_counts : forall kd n name si dm, 1 <= n -> reach kd n name si dm ->
  dm_npauli_ dm = length (all_considered dm n) /\
  (kd <> KPauli -> dm_ndm0_ dm = length (same_charge_pairs dm n)) /\
  (kd <> KPauli -> dm_ndm1_ dm = length (neighbour_pairs dm n)) /\
  ((ix_of name n = IxLin \/ ix_of name n = IxCharge) ->
     dm_npauli dm = dm_npauli_ dm /\
     (kd = KDM -> dm_ndm0r dm = dm_ndm0_ dm) /\
     (kd = KDMc -> dm_ndm0 dm = dm_ndm0_ dm)).
Proof.
  intros kd n name si dm Hn R. apply reach_reached in R; auto.
  destruct (rc_make _ _ _ _ _ R) as (qn & qi & d0 & lst & E & L & SEL & SO & HQ).
  pose proof (dm_fields kd (ix_of name n) qn qi (n + 1) d0 (lst ++ [[]])) as F.
  rewrite <- E in F. destruct F as (F1 & F2 & F3 & F4 & F5 & F6 & _ & _ & _ & _ & _ & _ & _ & F14 & F15).
  unfold all_considered, same_charge_pairs, neighbour_pairs, considered. rewrite F3.
  rewrite !flat_map_len. split; [|split; [|split]].
  - rewrite F4. reflexivity.
  - intros Hk. rewrite F5. destruct kd; try congruence; unfold psum; f_equal; apply map_ext; intros; now rewrite prod_length.
  - intros Hk. rewrite F6. replace (n + 1 - 1) with n by lia.
    destruct kd; try congruence; unfold psum; f_equal; apply map_ext; intros; rewrite prod_length; lia.
  - intros Hx. assert (Hix : ix_of name n <> IxSsq) by (destruct Hx as [-> | ->]; discriminate).
    assert (Hsel : forall b bp, sel (ix_of name n) qn b bp = true) by (unfold sel; destruct Hx as [-> | ->]; auto).
    assert (NP : dm_npauli dm = dm_npauli_ dm).
    { rewrite F4, E, dm_npauli_eq by auto. unfold diag_items. rewrite flat_map_len.
      unfold psum. f_equal. apply map_ext. intros. apply map_length. }
    split; auto.
    assert (ND : dm_ndm0 dm = dm_npauli dm + length (off_items kd (ix_of name n) qn (n + 1) (lst ++ [[]]))).
    { rewrite E, dm_ndm0_eq, dm_npauli_eq by auto. reflexivity. }
    split; intros ->.
    + rewrite F14, ND, NP, F4, F5. unfold off_items. rewrite filter_true' by auto. rewrite flat_map_len.
      clear. replace (fun x => length (map (pair x) (combinations2 (nth x (lst ++ [[]]) []))))
        with (fun x => length (map (pair x) (combinations2 (nth x (lst ++ [[]]) [])))) by auto.
      induction (n + 1); auto. rewrite !psum_S, seq_S, map_app, sumn_app. simpl.
      rewrite map_length. pose proof (combinations2_length (nth n0 (lst ++ [[]]) [])). unfold psum in *. lia.
    + rewrite ND, NP, F4, F5. unfold off_items. rewrite filter_true' by auto. rewrite flat_map_len.
      assert (PL : forall l, length (permutations2 l) + length l = length l * length l).
      { clear. intros l. unfold permutations2. rewrite flat_map_len.
        assert (H : forall i, i < length l -> length (flat_map (fun j => if i =? j then [] else [(nth i l 0, nth j l 0)]) (seq 0 (length l))) = length l - 1).
        { intros i Hi. rewrite flat_map_len.
          assert (G : forall m, sumn (map (fun j => length (if i =? j then [] else [(nth i l 0, nth j l 0)])) (seq 0 m)) = m - (if i <? m then 1 else 0)).
          { induction m; auto. rewrite seq_S, map_app, sumn_app, IHm. simpl.
            destruct (Nat.ltb_spec i m), (Nat.ltb_spec i (S m)), (Nat.eqb_spec i m); simpl; lia. }
          rewrite G. destruct (Nat.ltb_spec i (length l)); lia. }
        rewrite (map_ext_in _ (fun _ => length l - 1)) by (intros i Hi; apply in_seq in Hi; apply H; lia).
        assert (G : forall m k a, sumn (map (fun _ => k) (seq a m)) = m * k) by (induction m; simpl; intros; auto).
        rewrite G. destruct (length l); nia. }
      clear - PL. induction (n + 1); auto. rewrite !psum_S, seq_S, map_app, sumn_app. simpl.
      rewrite map_length. pose proof (PL (nth n0 (lst ++ [[]]) [])). unfold psum in *. lia.
Qed.
Print Assumptions C10_counts.

Theorem C10_full_counts : forall kd n name si dm, 1 <= n -> kd <> KPauli -> call_init kd n name = (si, dm) ->
  dm_npauli_ dm = 2 ^ n /\ dm_ndm0_ dm = ndm0_tot n /\ dm_ndm1_ dm = ndm1_tot n /\
  fact (2 * n) = ndm0_tot n * (fact n * fact n) /\ (n + 1) * ndm1_tot n = n * ndm0_tot n.
Proof.
  intros kd n name si dm Hn Hk E.
  unfold call_init, call_use_all, set_statesdm in E. injection E as _ E.
  pose proof (dm_fields kd (si_indexing (si_init n name)) (ind_qn (si_init n name)) (qn_ind (si_init n name))
    (si_ncharge (si_init n name)) (repeat 0 (si_nmany (si_init n name))) (si_chargelst (si_init n name) ++ [[]])) as F.
  rewrite E in F. destruct F as (F1 & F2 & F3 & F4 & F5 & F6 & _).
  rewrite init_nc in *.
  assert (BS : forall c, c <= n -> length (nth c (si_chargelst (si_init n name) ++ [[]]) []) = binom n c).
  { intros. rewrite nth_app_nil. apply block_size; auto. }
  split; [|split; [|split; [|split]]].
  - rewrite F4. rewrite (psum_ext _ (binom n)) by (intros; apply BS; lia).
    assert (P := construct_chargelst_perm n). apply Permutation_length in P. rewrite seq_length in P.
    rewrite <- P. unfold flatten. rewrite construct_chargelst_spec.
    rewrite <- flat_map_concat_map, flat_map_len. unfold psum. f_equal. apply map_ext_in. intros c Hc. apply in_seq in Hc.
    rewrite <- (block_size n "Lin" c) by lia. simpl. rewrite construct_chargelst_spec, nth_map_seq by lia. reflexivity.
  - rewrite F5, ndm0_tot_binom, <- sum_squares. destruct kd; try congruence; apply psum_ext; intros; rewrite !BS by lia; auto.
  - rewrite F6, ndm1_tot_binom, <- sum_neighbours by auto. replace (n + 1 - 1) with n by lia.
    destruct kd; try congruence; apply psum_ext; intros; rewrite !BS by lia; auto.
  - rewrite ndm0_tot_binom. apply central_fact.
  - rewrite ndm1_tot_binom, ndm0_tot_binom by auto.
    pose proof (binom_absorb (2 * n) (n - 1)) as A.
    replace (S (n - 1)) with n in A by lia. replace (n - 1 + 1) with n in A by lia. nia.
Qed.
Print Assumptions C10_full_counts.

(** *** C12 *)
(** StateIndexingDM keeps the caller's list: chargelst never changes except through removals. *)
Theorem C12_dm_unchanged : forall dict0 si si' dm',
  call_use_all KDM dict0 si = (si', dm') -> si' = si.
Proof. intros dict0 si si' dm' E. unfold call_use_all, set_statesdm in E. injection E as <- _. apply with_same. Qed.
Theorem C12_dm_caller_list : forall ixs qn qi nc d0 lst, fst (set_statesdm KDM ixs qn qi nc d0 lst) = lst.
Proof. reflexivity. Qed.

(** The claim itself, for a class: construction and use_all_states leave every lookup unchanged. *)
Definition keeps_chargelst (kd : kind) : Prop := forall n name si dm, 1 <= n ->
  call_init kd n name = (si, dm) -> forall c, get_lst si c None None = get_lst (si_init n name) c None None.

Theorem C12_dm : keeps_chargelst KDM.
Proof. intros n name si dm Hn E c. apply C12_dm_unchanged in E. now rewrite E. Qed.

(** StateIndexingPauli and StateIndexingDMc append an empty list to chargelst itself (indexing.py 721-722,
    1099-1100): get_lst(nsingle+1) then gives [] instead of an IndexError. *)
Theorem C12_pauli_refuted : ~ keeps_chargelst KPauli.
Proof.
  intros H. destruct (call_init KPauli 1 "charge") as [si dm] eqn:E.
  specialize (H 1 "charge"%string si dm (le_n 1) E 2). vm_compute in E. injection E as <- _.
  vm_compute in H. discriminate.
Qed.
Theorem C12_dmc_refuted : ~ keeps_chargelst KDMc.
Proof.
  intros H. destruct (call_init KDMc 1 "charge") as [si dm] eqn:E.
  specialize (H 1 "charge"%string si dm (le_n 1) E 2). vm_compute in E. injection E as <- _.
  vm_compute in H. discriminate.
Qed.

(** What survives for every class and every history: the lookups of the charges 0..n are those of the
    untouched indexing (for histories without removals: of the fresh object). *)
Inductive select_only (kd : kind) (n : nat) (name : string) : SI -> DMI -> Prop :=
| so_init : forall si dm, call_init kd n name = (si, dm) -> select_only kd n name si dm
| so_all : forall si dm si' dm', select_only kd n name si dm ->
    call_use_all kd (dm_dictdm dm) si = (si', dm') -> select_only kd n name si' dm'
| so_set : forall si dm lst si' dm', select_only kd n name si dm -> call_set kd dm si lst = (si', dm') ->
    select_only kd n name si' dm'.

Theorem C12_lookups_partial : forall kd n name si dm, select_only kd n name si dm ->
  forall c, c <= n -> get_lst si c None None = get_lst (si_init n name) c None None.
Proof.
  intros kd n name si dm H.
  assert (A : (exists e, si_chargelst si = si_chargelst (si_init n name) ++ e)).
  { assert (U : forall d0 s s' d', call_use_all kd d0 s = (s', d') -> exists e, si_chargelst s' = si_chargelst s ++ e).
    { intros d0 s s' d' E. unfold call_use_all, set_statesdm in E. injection E as <- _. simpl.
      destruct kd; [exists [[]]|exists []|exists [[]]]; auto. now rewrite app_nil_r. }
    induction H as [si dm E|si dm si' dm' H [e IH] E|si dm lst si' dm' H IH E].
    - apply U in E. auto.
    - apply U in E. destruct E as [e' E]. exists (e ++ e'). now rewrite E, IH, app_assoc.
    - injection E as <- _. auto. }
  intros c Hc. destruct A as [e A]. unfold get_lst. rewrite A. apply nth_error_app1.
  rewrite (ok_cl_len _ _ (si_init_ok n name)), init_n. lia.
Qed.
Print Assumptions C12_lookups_partial.

(** *** A concrete reachable object (hypotheses of C07-C11): nsingle = 4, 'sz', the Fock state with
    Lin index 3 removed, then a truncated selection of states. *)
Definition case_sel : list (list nat) := [[0]; [1; 3]; [5; 6; 7; 9]; []; [14]].
Example reach_case : exists si dm, reach KDM 4 "sz" si dm /\
  dm_statesdm dm = case_sel ++ [[]] /\
  (dm_npauli_ dm, dm_ndm0_ dm, dm_ndm1_ dm, dm_npauli dm, dm_ndm0 dm) = (8, 22, 10, 8, 11) /\
  get_ind_dm0 dm 6 5 2 = Some 8%Z /\ get_bool_dm0 dm 6 5 2 = Some false /\
  get_ind_dm0 dm 1 3 1 = Some (-1)%Z.
Proof.
  destruct (call_init KDM 4 "sz") as [si0 dm0] eqn:E0.
  destruct (call_remove KDM dm0 si0 [3]) as [[si1 dm1]|] eqn:E1.
  2: { vm_compute in E0. injection E0 as <- <-. vm_compute in E1. discriminate. }
  destruct (call_set KDM dm1 si1 case_sel) as [si2 dm2] eqn:E2.
  exists si2, dm2. split.
  - eapply reach_set; [|  |exact E2].
    + eapply reach_remove; [|  |  |exact E1].
      * apply reach_init. exact E0.
      * right. reflexivity.
      * intros k [<-|[]]. simpl. lia.
    + vm_compute in E0. injection E0 as <- <-. vm_compute in E1. injection E1 as <- <-.
      unfold selection, case_sel. split; [simpl; lia|]. split.
      * intros c Hc. apply nth_overflow. simpl in *. lia.
      * intros c. do 5 (destruct c as [|c];
          [split; [simpl; repeat constructor; simpl; intuition lia|]; simpl; intros k Hk;
           repeat (destruct Hk as [<-|Hk]; [eexists; split; reflexivity|]); destruct Hk|]).
        simpl. destruct c; split; try constructor; intros k [].
  - vm_compute in E0. injection E0 as <- <-. vm_compute in E1. injection E1 as <- <-.
    vm_compute in E2. injection E2 as <- <-. vm_compute. repeat split; reflexivity.
Qed.
Example C10_case : ndm0_tot 4 = 70 /\ ndm1_tot 4 = 56.
Proof. rewrite ndm0_tot_binom, ndm1_tot_binom by lia. vm_compute. auto. Qed.
