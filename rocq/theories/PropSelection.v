(** C39: selection of states by energy; C45: read-out of density-matrix elements by state. *)
From Coq Require Import String List Arith Lia ZArith Bool QArith.
From Verif Require Import Base Bits Indexing IndexingProofs RemoveProofs Binom SsqProofs Qn
  PropIndexing DMIndex DMIndexProofs DMReach PropDMIndex CRing Layout Coherences Kernel KernelProofs CohProofs PropKernel Selection.
Import ListNotations.
Open Scope nat_scope.
Local Notation length := List.length.

(** ** C39 *)
Lemma q_lt_iff : forall x y, q_lt x y = true <-> (x < y)%Q.
Proof.
  intros. unfold q_lt. rewrite Bool.negb_true_iff. split; intros H.
  - apply Qnot_le_lt. intros L. apply Qle_bool_iff in L. congruence.
  - apply Bool.not_true_iff_false. intros L. apply Qle_bool_iff in L. now apply Qlt_not_le in H.
Qed.
Lemma min_energy_spec : forall E m, min_energy E = Some m -> (exists g, g < length E /\ nth g E 0%Q = m) /\ forall k, k < length E -> (m <= nth k E 0)%Q.
Proof.
  intros [|e r] m H; [discriminate|]. cbn in H. injection H as <-.
  assert (G : forall r e, (fold_left (fun m x => if q_lt x m then x else m) r e <= e)%Q /\
     (In (fold_left (fun m x => if q_lt x m then x else m) r e) (e :: r)) /\
     forall x, In x r -> (fold_left (fun m x => if q_lt x m then x else m) r e <= x)%Q).
  { clear. induction r as [|x r IH]; intros e; cbn [fold_left].
    - split; [apply Qle_refl|]. split; [now left|]. intros x [].
    - destruct (q_lt x e) eqn:L.
      + destruct (IH x) as (I1 & I2 & I3). split; [|split].
        * apply Qle_trans with x; auto. apply Qlt_le_weak. now apply q_lt_iff.
        * now right.
        * intros y [<-|Hy]; auto.
      + destruct (IH e) as (I1 & I2 & I3). split; auto. split.
        * destruct I2 as [I2|I2]; [left|right; right]; auto.
        * intros y [<-|Hy]; auto. apply Qle_trans with e; auto. apply Qnot_lt_le. intros C. apply q_lt_iff in C. congruence. }
  destruct (G r e) as (G1 & G2 & G3). split.
  - destruct (In_nth _ _ 0%Q G2) as (g & Hg & Eg). exists g. auto.
  - intros k Hk. destruct (nth_in_or_default k (e :: r) 0%Q) as [[Hin|Hin]|Hd].
    + rewrite <- Hin. exact G1.
    + apply G3. exact Hin.
    + rewrite Hd. destruct k as [|k]; cbn in *; [now subst|]. apply (G3 0%Q). rewrite <- Hd. apply nth_In. lia.
Qed.

(** *** specification: which states a call asks for *)
Definition has_charge (si : SI) (b c : nat) : Prop := exists s, get_state si b = Some s /\ electrons s = c.
(** state b lies less than dE above the lowest of the N energies *)
Definition low (N : nat) (E : list Q) (dE : Q) (b : nat) : Prop :=
  exists g, g < N /\ (forall k, k < N -> (nth g E 0 <= nth k E 0)%Q) /\ (nth b E 0 < nth g E 0 + dE)%Q.

Lemma good_chargelst : forall n name si, good n name si -> forall c b, In b (nth c (si_chargelst si) []) <-> has_charge si b c.
Proof.
  intros n name si G c b. split; [intros H; now apply (chargelst_selection _ _ _ G)|]. intros (s & E1 & E2).
  destruct (g_live _ _ _ G) as (live & OK & _ & _).
  assert (Hc : c <= n).
  { unfold get_state in E1. destruct (nth_error (si_i si) b) as [x|] eqn:Ex; [|discriminate]. cbn in E1. injection E1 as <-. subst c.
    rewrite electrons_charge. rewrite (g_n _ _ _ G). apply occ_charge_le.
    pose proof (ok_i_in _ _ OK x) as X. cbn in X. rewrite (g_n _ _ _ G) in X. apply X. eapply nth_error_In; eauto. }
  assert (E : nth c (si_chargelst (trim si)) [] = nth c (si_chargelst si) []).
  { simpl. rewrite (g_n _ _ _ G). apply nth_firstn. lia. }
  rewrite <- E. apply (ok_charge_block _ _ c b OK); [cbn; rewrite (g_n _ _ _ G); exact Hc|].
  exists s. split; [exact E1|]. now rewrite <- electrons_charge.
Qed.

(** *** a history of selections *)
Inductive scall := SAll | SRemove (E : list Q) (dE : Q).
Definition sel_step (kd : kind) (si : SI) (dm : DMI) (c : scall) : option (SI * DMI) :=
  match c with SAll => Some (call_use_all kd (dm_dictdm dm) si) | SRemove E dE => call_remove_states kd dm si E dE end.
Fixpoint sel_run (kd : kind) (si : SI) (dm : DMI) (cs : list scall) : option (SI * DMI) :=
  match cs with
  | [] => Some (si, dm)
  | c :: r => match sel_step kd si dm c with Some (si', dm') => sel_run kd si' dm' r | None => None end
  end.
(** one energy for every state *)
Definition scall_ok (N : nat) (c : scall) : Prop := match c with SAll => True | SRemove E _ => length E = N end.
Definition asked (si : SI) (c : scall) (q b : nat) : Prop :=
  has_charge si b q /\ match c with SAll => True | SRemove E dE => low (si_nmany si) E dE b end.

Lemma dm_states : forall kd ixs qn qi nc d0 lst, dm_statesdm (set_statesdm' kd ixs qn qi nc d0 lst) = lst.
Proof. intros. unfold set_statesdm'. destruct (diag_loop _ _ _ _ _ _) as [a l]. destruct (off_loop _ _ _ _ _ _ _) as [a' l']. reflexivity. Qed.

Lemma nth_low : forall E m si c, nth c (low_states E m si) [] =
  if c <? si_nsingle si + 1 then filter (fun b => q_lt (nth b E 0%Q) m) (nth c (si_chargelst si) []) else [].
Proof.
  intros. unfold low_states. destruct (Nat.ltb_spec c (si_nsingle si + 1)) as [H|H].
  - rewrite (nth_indep _ [] (filter (fun b => q_lt (nth b E 0%Q) m) (nth 0 (si_chargelst si) []))) by now rewrite map_length, seq_length.
    rewrite (map_nth (fun charge => filter (fun b => q_lt (nth b E 0%Q) m) (nth charge (si_chargelst si) []))). now rewrite seq_nth.
  - apply nth_overflow. now rewrite map_length, seq_length.
Qed.

Lemma sel_step_ok : forall kd n name si dm c, 1 <= n -> reach kd n name si dm -> 0 < si_nmany si -> scall_ok (si_nmany si) c ->
  exists si' dm', sel_step kd si dm c = Some (si', dm') /\ reach kd n name si' dm' /\
    si_nmany si' = si_nmany si /\ (forall b, get_state si' b = get_state si b) /\
    forall q, NoDup (considered dm' q) /\ forall b, In b (considered dm' q) <-> asked si c q b.
Proof.
  intros kd n name si dm c Hn R HN OK. pose proof (rc_good _ _ _ _ _ (reach_reached _ _ _ _ _ Hn R)) as G.
  pose proof (good_chargelst _ _ _ G) as GC. destruct c as [|E dE]; cbn [sel_step].
  - destruct (call_use_all kd (dm_dictdm dm) si) as [si' dm'] eqn:EC. exists si', dm'. split; auto.
    split; [eapply reach_all; eauto|]. unfold call_use_all, set_statesdm in EC. injection EC as <- <-. split; auto. split; auto.
    intros q. unfold considered. rewrite dm_states, nth_app_nil. split; [apply (chargelst_selection _ _ _ G)|]. intros b. rewrite GC.
    unfold asked. tauto.
  - cbn in OK. unfold call_remove_states. destruct (min_energy E) as [m|] eqn:Em; [|destruct E; cbn in *; [lia|discriminate]].
    destruct (min_energy_spec _ _ Em) as ((g & Hg & Eg) & Hm). rewrite OK in *.
    assert (LOW : forall b, (nth b E 0 < m + dE)%Q <-> low (si_nmany si) E dE b).
    { intros b. split.
      - intros H. exists g. split; auto. rewrite Eg. split; auto.
      - intros (g' & Hg' & Hk & Hb). apply Qlt_le_trans with (1 := Hb). rewrite <- Eg. apply Qplus_le_compat; [auto|apply Qle_refl]. }
    assert (SEL : selection si (low_states E (m + dE)%Q si)).
    { destruct (chargelst_selection _ _ _ G) as (_ & S2 & S3). split; [unfold low_states; rewrite map_length, seq_length; lia|]. split.
      - intros c Hc. rewrite nth_low. destruct (Nat.ltb_spec c (si_nsingle si + 1)); [lia|reflexivity].
      - intros c. rewrite nth_low. destruct (c <? si_nsingle si + 1); [|split; [constructor|intros k []]]. split.
        + apply NoDup_filter. apply S3.
        + intros k Hk. apply filter_In in Hk. apply S3. apply Hk. }
    eexists _, _. split; [reflexivity|]. split; [eapply reach_set; eauto; reflexivity|]. split; auto. split; auto.
    intros q. cbn [snd set_statesdm]. unfold considered. rewrite dm_states, nth_app_nil. split; [apply SEL|]. intros b. rewrite nth_low. unfold asked. rewrite <- GC, <- LOW, <- q_lt_iff.
    destruct (Nat.ltb_spec q (si_nsingle si + 1)) as [Hq|Hq]; [apply filter_In|].
    split; [intros []|]. intros (H & _). destruct (chargelst_selection _ _ _ G) as (_ & S2 & _). rewrite S2 in H by lia. exact H.
Qed.

Theorem C39_history : forall kd n name cs last si dm, 1 <= n -> reach kd n name si dm -> 0 < si_nmany si ->
  Forall (scall_ok (si_nmany si)) (cs ++ [last]) ->
  exists si' dm', sel_run kd si dm (cs ++ [last]) = Some (si', dm') /\ reach kd n name si' dm' /\
    forall q, NoDup (considered dm' q) /\ forall b, In b (considered dm' q) <-> asked si last q b.
Proof.
  intros kd n name cs last. induction cs as [|c cs IH]; intros si dm Hn R HN OK; cbn [app] in *.
  - pose proof (Forall_inv OK) as O1. destruct (sel_step_ok _ _ _ _ _ _ Hn R HN O1) as (si' & dm' & S1 & S2 & _ & _ & S5).
    exists si', dm'. cbn [sel_run]. rewrite S1. auto.
  - pose proof (Forall_inv OK) as O1. pose proof (Forall_inv_tail OK) as O2.
    destruct (sel_step_ok _ _ _ _ _ _ Hn R HN O1) as (si' & dm' & S1 & S2 & S3 & S4 & _).
    destruct (IH si' dm') as (si2 & dm2 & I1 & I2 & I3); auto; [lia|now rewrite S3|].
    exists si2, dm2. cbn [sel_run]. rewrite S1. split; auto. split; auto. intros q. split; [apply I3|]. intros b.
    destruct (I3 q) as (_ & I4). rewrite I4. unfold asked, has_charge. rewrite S4, S3. reflexivity.
Qed.
Print Assumptions C39_history.

(** With dE = 0 (or negative) no state is left, not even the ground state: the comparison is strict. *)
Theorem C39_zero_refuted : forall kd n name si dm E dE, 1 <= n -> reach kd n name si dm -> 0 < si_nmany si -> length E = si_nmany si -> (dE <= 0)%Q ->
  exists si' dm', call_remove_states kd dm si E dE = Some (si', dm') /\ forall q, considered dm' q = [].
Proof.
  intros kd n name si dm E dE Hn R HN HE Hd. destruct (C39_history kd n name [] (SRemove E dE) si dm Hn R HN) as (si' & dm' & S1 & _ & S3).
  { constructor; auto. }
  cbn in S1. destruct (call_remove_states kd dm si E dE) as [[si2 dm2]|] eqn:EC; [|discriminate]. injection S1 as -> ->.
  exists si', dm'. split; auto. intros q. destruct (considered dm' q) as [|b l] eqn:Ec; auto. exfalso.
  destruct (S3 q) as (_ & S4). rewrite Ec in S4. destruct (proj1 (S4 b) (or_introl eq_refl)) as ((s & Es & _) & (g & Hg & Hk & Hb)).
  assert (B : b < si_nmany si).
  { unfold get_state in Es. destruct (nth_error (si_i si) b) eqn:Ei; [|discriminate].
    destruct (g_live _ _ _ (rc_good _ _ _ _ _ (reach_reached _ _ _ _ _ Hn R))) as (live & OK & _). pose proof (ok_nmany _ _ OK) as X. cbn in X. rewrite X.
    apply nth_error_Some. congruence. }
  apply Qlt_not_le in Hb. apply Hb. apply Qle_trans with (nth g E 0 + 0)%Q; [apply Qplus_le_compat; [apply Qle_refl|auto]|]. rewrite Qplus_0_r. auto.
Qed.
Print Assumptions C39_zero_refuted.

(** *** example: two levels, energies 0, 1, 2, 5; then 0, 1, 2, 2; then all again *)
Definition c39_sys := call_init KDM 2 "charge".
Definition c39_calls : list scall := [SRemove [0; 1; 2; 5]%Q 2%Q; SRemove [0; 1; 2; 2]%Q (5 # 2)%Q; SAll; SRemove [0; -1; 2; 5]%Q 3%Q].
Example C39_case :
  map (fun k => match sel_run KDM (fst c39_sys) (snd c39_sys) (firstn k c39_calls) with Some (_, dm) => dm_statesdm dm | None => [] end) [1; 2; 3; 4] =
  [[[0]; [1]; []; []]; [[0]; [1; 2]; [3]; []]; [[0]; [1; 2]; [3]; []]; [[0]; [1]; []; []]].
Proof. vm_compute. reflexivity. Qed.
Example C39_case_hyps : reach KDM 2 "charge" (fst c39_sys) (snd c39_sys) /\ 0 < si_nmany (fst c39_sys) /\ Forall (scall_ok (si_nmany (fst c39_sys))) c39_calls.
Proof. split; [apply reach_init; reflexivity|]. split; [vm_compute; lia|]. repeat constructor. Qed.

(** ** C45 *)
Lemma conj_length : forall dm, length (conjdm0 dm) = dm0_size dm.
Proof. intros. unfold conjdm0. now rewrite (writes_length _ (ev_slot dm) (fun e => e_conj e)), repeat_length. Qed.
(** what get_phi0 reads is inside the arrays *)
Lemma system_slots : forall n name si L, 1 <= n -> ix_of name n <> IxSsq -> system n name si L ->
  forall b bp c, (0 <= c)%Z -> In b (states L c) -> In bp (states L c) ->
  slot_at L b bp c < length (ly_mapdm0 L) /\ slot_at L b bp c < length (ly_conjdm0 L).
Proof.
  intros n name si L Hn Hix SY b bp c Hc Hb Hbp.
  assert (CL : forall dm, reach KDM n name si dm -> length (ly_conjdm0 (lay_of dm)) = ly_ndm0_ (lay_of dm)).
  { intros dm R. cbn. rewrite conj_length. apply (C07_slots KDM n name si dm Hn R). }
  destruct SY as [dm R|dm E dE L' R Hp HE RM].
  - pose proof (fresh_reach _ _ _ _ Hn Hix R) as F. pose proof (fl_slot _ F b bp c Hc Hb Hbp) as SL. split; [rewrite (fl_len _ F)|rewrite (CL dm R)]; exact SL.
  - pose proof (fresh_reach _ _ _ _ Hn Hix R) as F. pose proof (CL dm R) as CL'.
    destruct (rm_fields (qfar E dE) (qfar_sym E dE) (fun b => qfar_diag E dE b HE) (lay_of dm)
      (layout_reach _ _ _ _ Hn Hix R) F Hp L' RM) as (_ & _ & _ & _ & _ & ST & _).
    rewrite ST in Hb, Hbp. pose proof (fl_slot _ F b bp c Hc Hb Hbp) as SL. pose proof (fl_len _ F) as FL.
    unfold remove_coherences in RM. destruct (scan _ _ _) as [es|]; [|discriminate]. destruct (relabel _ _ _) as [es' cnt]. injection RM as <-.
    cbn [ly_mapdm0 ly_conjdm0 lay_of] in *. rewrite !set_all_length. split; [rewrite FL|rewrite CL']; exact SL.
Qed.

Section Read.
Variable K : CRing.
Add Ring Ksel : (rth K).
Local Open Scope rng_scope.
Local Notation C := (Cx K).
Variables (n : nat) (name : string) (si : SI) (L : Lay).
Hypotheses (Hn : (1 <= n)%nat) (Hix : ix_of name n <> IxSsq) (SY : system n name si L).
(** states_order: any list that gives each label a state; b_ is the label of the considered state b with charge c *)
Definition label (order : list nat) (b_ b : nat) (c : Z) : Prop := nth_error order b_ = Some b /\ (0 <= c)%Z /\ In b (states L c).

Lemma label_state : forall order b_ b c, label order b_ b c -> labelled si order b_ = Some (b, Z.to_nat c).
Proof.
  intros order b_ b c (H1 & H2 & H3). unfold labelled. rewrite H1. pose proof (system_charge n name si L Hn Hix SY c b H2 H3) as CH.
  destruct (zc c H2) as (k & ->). rewrite Nat2Z.id in *.
  assert (X : exists dm, reach KDM n name si dm /\ states L (Z.of_nat k) = states (lay_of dm) (Z.of_nat k)).
  { destruct SY as [dm R|dm E dE L' R Hp HE RM]; exists dm; split; auto.
    destruct (rm_fields (qfar E dE) (qfar_sym E dE) (fun b => qfar_diag E dE b HE) (lay_of dm)
      (layout_reach _ _ _ _ Hn Hix R) (fresh_reach _ _ _ _ Hn Hix R) Hp L' RM) as (_ & _ & _ & _ & _ & ST & _).
    apply ST. }
  destruct X as (dm & R & EQ). rewrite EQ, states_nat in H3. destruct (considered_charge KDM n name si dm Hn R k b H3) as (_ & s & Es & Hs).
  rewrite Es. cbn. now rewrite Hs.
Qed.

(** get_phi0 returns the element of the density matrix that the kernel acts on (rho, used in C33, C46), 0 between charges. *)
Theorem C45_phi0 : forall order phi0 b_ b c bp_ bp c', length phi0 = ly_ndm0r L -> label order b_ b c -> label order bp_ bp c' ->
  get_phi0 K si L order false phi0 b_ bp_ = Some (if (c =? c')%Z then rho K L (fun k => nth (Z.to_nat k) phi0 0) b bp c else 0).
Proof.
  intros order phi0 b_ b c bp_ bp c' LP HL HL'. pose proof (system_layout n name si L Hn Hix SY) as LO.
  unfold get_phi0. rewrite (label_state _ _ _ _ HL), (label_state _ _ _ _ HL'). cbn [with_two].
  destruct HL as (_ & Hc & Hb). destruct HL' as (_ & Hc' & Hbp). rewrite Z2Nat.id by auto.
  destruct (Z.eqb_spec c c') as [<-|NE].
  2:{ destruct (Nat.eqb_spec (Z.to_nat c) (Z.to_nat c')); [lia|reflexivity]. }
  rewrite Nat.eqb_refl. destruct (system_slots n name si L Hn Hix SY b bp c Hc Hb Hbp) as (S1 & S2).
  rewrite (nth_error_nth' _ (-1)%Z S1), (nth_error_nth' _ false S2). fold (ind0 L b bp c) (cnj L b bp c). unfold rho.
  destruct (Z.eqb_spec (ind0 L b bp c) (-1)) as [E|E]; [reflexivity|].
  pose proof (lo_le _ LO) as LE. pose proof (lo_size _ LO) as LS.
  assert (RG : (0 <= ind0 L b bp c < Z.of_nat (ly_ndm0 L))%Z /\ (b = bp -> (ind0 L b bp c < Z.of_nat (ly_npauli L))%Z) /\
               (b <> bp -> (Z.of_nat (ly_npauli L) <= ind0 L b bp c)%Z)).
  { destruct (Nat.eq_dec b bp) as [<-|N].
    - destruct (lo_diag _ LO b c Hc Hb) as (D & _). split; [lia|]. split; [lia|congruence].
    - destruct (lo_off _ LO b bp c Hc Hb Hbp N) as (_ & D). destruct (D E) as (D' & _). split; [lia|]. split; [congruence|lia]. }
  destruct RG as (R1 & _ & _).
  assert (P : forall k, (0 <= k < Z.of_nat (ly_ndm0r L))%Z -> py_nth phi0 k = Some (nth (Z.to_nat k) phi0 0)).
  { intros k Hk. rewrite py_nth_nonneg by lia. apply nth_error_nth'. lia. }
  rewrite !P by lia. unfold has_imag, imag_ind, ndm0Z, npauliZ.
  destruct (Z.ltb_spec (ind0 L b bp c) (Z.of_nat (ly_npauli L))) as [D|D];
    destruct (Z.leb_spec (Z.of_nat (ly_ndm0 L)) (Z.of_nat (ly_ndm0 L) + ind0 L b bp c - Z.of_nat (ly_npauli L))) as [D'|D']; try lia; f_equal.
  - f_equal. ring.
  - replace (Z.of_nat (ly_ndm0 L) - Z.of_nat (ly_npauli L) + ind0 L b bp c)%Z with (Z.of_nat (ly_ndm0 L) + ind0 L b bp c - Z.of_nat (ly_npauli L))%Z by lia.
    f_equal. destruct (cnj L b bp c); ring.
Qed.

(** get_phi1 returns the stored amplitude of the pair, its conjugate for the exchanged pair, 0 for states that no lead connects. *)
Theorem C45_phi1 : forall order phi1 c_ c q b_ b q', length phi1 = ly_ndm1 L -> label order c_ c q -> label order b_ b q' ->
  get_phi1 K si L order phi1 c_ b_ =
    Some (if (q =? q' + 1)%Z then nth (ind1 L c b q') phi1 0 else if (q + 1 =? q')%Z then conj (nth (ind1 L b c q) phi1 0) else 0) /\
  ((q = q' + 1)%Z -> ind1 L c b q' < length phi1)%nat /\ ((q + 1 = q')%Z -> ind1 L b c q < length phi1)%nat.
Proof.
  intros order phi1 c_ c q b_ b q' LP HL HL'. pose proof (system_layout n name si L Hn Hix SY) as LO.
  unfold get_phi1. rewrite (label_state _ _ _ _ HL), (label_state _ _ _ _ HL'). cbn [with_two].
  destruct HL as (_ & Hc & Hb). destruct HL' as (_ & Hc' & Hbp). rewrite !Z2Nat.id by auto.
  assert (I1 : (q = q' + 1)%Z -> (ind1 L c b q' < length phi1)%nat).
  { intros ->. rewrite LP. apply (lo_ind1 _ LO); auto. }
  assert (I2 : (q + 1 = q')%Z -> (ind1 L b c q < length phi1)%nat).
  { intros <-. rewrite LP. apply (lo_ind1 _ LO); auto. }
  split; auto.
  destruct (Z.eqb_spec q (q' + 1)) as [E|E]; destruct (Nat.eqb_spec (Z.to_nat q) (Z.to_nat q' + 1)); try lia; [now apply nth_error_nth', I1|].
  destruct (Z.eqb_spec (q + 1) q') as [E'|E']; destruct (Nat.eqb_spec (Z.to_nat q + 1) (Z.to_nat q')); try lia; auto.
  rewrite (nth_error_nth' _ (0 : C) (I2 E')). reflexivity.
Qed.
End Read.
Print Assumptions C45_phi0.
Print Assumptions C45_phi1.

(** StateIndexingDMc (2vN): the element numbered for the ordered pair, 0 for pairs that are not numbered and between charges. *)
Theorem C45_phi0_dmc : forall (K : CRing) n name si dm order phi0 b_ b c bp_ bp c', 1 <= n -> ix_of name n <> IxSsq -> reach KDMc n name si dm ->
  length phi0 = dm_ndm0 dm -> nth_error order b_ = Some b -> In b (considered dm c) -> nth_error order bp_ = Some bp -> In bp (considered dm c') ->
  (c <> c' -> get_phi0_c K si (lay_of dm) order phi0 b_ bp_ = Some r0) /\
  (c = c' -> b <> bp -> ~ coherent si b bp -> get_phi0_c K si (lay_of dm) order phi0 b_ bp_ = Some r0) /\
  (c = c' -> (b = bp \/ coherent si b bp) -> exists k, k < dm_ndm0 dm /\ get_ind_dm0 dm b bp c = Some (Z.of_nat k) /\
     get_phi0_c K si (lay_of dm) order phi0 b_ bp_ = Some (nth k phi0 r0)).
Proof.
  intros K n name si dm order phi0 b_ b c bp_ bp c' Hn Hix R LP O1 H1 O2 H2.
  assert (LE : dm_npauli dm <= dm_ndm0 dm).
  { pose proof (reach_reached _ _ _ _ _ Hn R) as RR. destruct (rc_make _ _ _ _ _ RR) as (qn & qi & d0 & lst & -> & L & _ & SO & _).
    rewrite <- L in SO. rewrite dm_npauli_eq by auto. rewrite dm_ndm0_eq by auto. lia. }
  assert (LAB : forall x_ x q, nth_error order x_ = Some x -> In x (considered dm q) -> labelled si order x_ = Some (x, q)).
  { intros x_ x q Hx Hq. unfold labelled. rewrite Hx. destruct (considered_charge KDMc n name si dm Hn R q x Hq) as (_ & s & Es & Hs). rewrite Es. cbn. now rewrite Hs. }
  assert (SL : forall x y q, nth_error (ly_mapdm0 (lay_of dm)) (slot_at (lay_of dm) x y (Z.of_nat q)) = get_ind_dm0 dm x y q).
  { intros x y q. unfold get_ind_dm0. cbn [ly_mapdm0 lay_of]. f_equal. unfold slot_at, dm0_slot. cbn. rewrite Nat2Z.id.
    assert (KD : dm_kind dm = KDMc).
    { pose proof (reach_reached _ _ _ _ _ Hn R) as RR. destruct (rc_make _ _ _ _ _ RR) as (qn & qi & d0 & lst & -> & _).
      apply (dm_fields KDMc (ix_of name n) qn qi (n + 1) d0 (lst ++ [[]])). }
    now rewrite KD. }
  pose proof (C08_numbering_dmc n name si dm Hn Hix R) as (N1 & N2 & N3 & _).
  unfold get_phi0_c. rewrite (LAB _ _ _ O1 H1), (LAB _ _ _ O2 H2). cbn [with_two].
  split; [|split].
  - intros NE. destruct (Nat.eqb_spec c c'); [contradiction|reflexivity].
  - intros <- NE NC. rewrite Nat.eqb_refl, SL. destruct (N3 b bp c H1 H2 NE NC) as (-> & _). reflexivity.
  - intros <- CO. rewrite Nat.eqb_refl, SL.
    assert (X : exists k, k < dm_ndm0 dm /\ get_ind_dm0 dm b bp c = Some (Z.of_nat k)).
    { destruct (Nat.eq_dec b bp) as [<-|NE].
      - destruct (N1 b c H1) as (k & Hk & Ek & _). exists k. split; [lia|auto].
      - destruct CO as [CO|CO]; [contradiction|]. destruct (N2 b bp c H1 H2 NE CO) as (k & Hk & Ek & _). exists k. split; [lia|auto]. }
    destruct X as (k & Hk & Ek). exists k. split; auto. split; auto. rewrite Ek. destruct (Z.eqb_spec (Z.of_nat k) (-1)); [lia|].
    rewrite py_nth_nat. apply nth_error_nth'. lia.
Qed.
Print Assumptions C45_phi0_dmc.

(** *** examples: two levels, 'charge' indexing, states sorted as 0, 2, 1, 3 *)
Local Open Scope Z_scope.
Definition c45_phi : list ZRing := [1; 4; 5; 6; 9; 11].
Example C45_case : map (fun p => get_phi0 ZRing ex_si ex_L [0; 2; 1; 3]%nat false c45_phi (fst p) (snd p)) [(1, 1); (2, 1); (1, 2); (0, 3)]%nat =
  [Some (@mkC ZRing 5 0); Some (@mkC ZRing 9 11); Some (@mkC ZRing 9 (-11)); Some (@mkC ZRing 0 0)].
Proof. vm_compute. reflexivity. Qed.
Example C45_case_hyps : system 2 "charge" ex_si ex_L /\ length c45_phi = ly_ndm0r ex_L /\ label ex_L [0; 2; 1; 3]%nat 1 2 1 /\ label ex_L [0; 2; 1; 3]%nat 2 1 1.
Proof. split; [exact ex_system|]. split; [reflexivity|]. split; (split; [reflexivity|split; [lia|vm_compute; auto]]). Qed.
Definition c45_phi1 : list (Cx ZRing) := [@mkC ZRing 1 2; @mkC ZRing 3 4; @mkC ZRing 5 6; @mkC ZRing 7 8].
Example C45_case1 : length c45_phi1 = ly_ndm1 ex_L /\
  map (fun p => get_phi1 ZRing ex_si ex_L [0; 2; 1; 3]%nat c45_phi1 (fst p) (snd p)) [(1, 0); (0, 1); (3, 2); (3, 0)]%nat =
  [Some (@mkC ZRing 3 4); Some (@mkC ZRing 3 (-4)); Some (@mkC ZRing 5 6); Some (@mkC ZRing 0 0)].
Proof. vm_compute. auto. Qed.
Definition c45_dmc : DMI := snd (call_init KDMc 2 "charge").
Example C45_case_dmc : length (considered c45_dmc 1) = 2%nat /\ dm_ndm0 c45_dmc = 6%nat /\
  map (fun p => get_phi0_c ZRing (fst (call_init KDMc 2 "charge")) (lay_of c45_dmc) [0; 2; 1; 3]%nat (map (fun z => @mkC ZRing z (z + 1)) [10; 20; 30; 40; 50; 60]) (fst p) (snd p))
    [(1, 1); (2, 1); (1, 2); (0, 3)]%nat = [Some (@mkC ZRing 30 31); Some (@mkC ZRing 50 51); Some (@mkC ZRing 60 61); Some (@mkC ZRing 0 0)].
Proof. vm_compute. auto. Qed.

(** *** refutations *)
(** A state that remove_states left out keeps its old entry of dictdm, so the lookup gives another element: after keeping
    states 0, 2 and 3, the probability reported for state 1 is the one of state 2. *)
Definition c45_sel : SI * DMI := match call_remove_states KDM ex_dm ex_si [0; 5; 1; 2]%Q 3%Q with Some x => x | None => (ex_si, ex_dm) end.
Theorem C45_removed_refuted : exists si L phi0, reach KDM 2 "charge" si (snd c45_sel) /\ L = lay_of (snd c45_sel) /\ length phi0 = ly_ndm0r L /\
  ~ In 1%nat (states L 1) /\ get_phi0 ZRing si L [0; 1; 2; 3]%nat false phi0 1 1 = Some (@mkC ZRing 7 0).
Proof.
  exists ex_si, (lay_of (snd c45_sel)), [2; 7; 3].
  split.
  - destruct (C39_history KDM 2 "charge" [] (SRemove [0; 5; 1; 2]%Q 3%Q) ex_si ex_dm) as (si' & dm' & S1 & S2 & _).
    + lia.
    + apply reach_init. reflexivity.
    + vm_compute. lia.
    + repeat constructor.
    + cbn [app sel_run sel_step] in S1. unfold c45_sel. destruct (call_remove_states KDM ex_dm ex_si [0; 5; 1; 2]%Q 3%Q) as [[si2 dm2]|] eqn:EC; [|discriminate].
      injection S1 as -> ->. assert (E : si' = ex_si).
      { unfold call_remove_states in EC. destruct (min_energy _); [|discriminate]. unfold call_set in EC. congruence. }
      subst. exact S2.
  - split; [reflexivity|]. split; [reflexivity|]. split; [intros H; vm_compute in H; intuition discriminate|vm_compute; reflexivity].
Qed.
(** No builder passes kerntype on to FunctionProperties (builder_base.py 133-137), so funcp.kerntype is always '2vN' and get_phi0 of
    a Pauli solution (npauli entries) takes the general branch: it raises IndexError for considered states. *)
Theorem C45_pauli_refuted : exists si L phi0 b, system 2 "charge" si L /\ length phi0 = ly_npauli L /\ In b (states L 2) /\
  get_phi0 ZRing si L [0; 1; 2; 3]%nat false phi0 b b = None /\ get_phi0 ZRing si L [0; 1; 2; 3]%nat true phi0 b b = Some (@mkC ZRing 4 0).
Proof. exists ex_si, ex_L, [1; 2; 3; 4], 3%nat. split; [exact ex_system|]. vm_compute. auto. Qed.
Print Assumptions C45_removed_refuted.
Print Assumptions C45_pauli_refuted.
