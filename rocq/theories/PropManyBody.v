(** Property C67: systems given by their many-body states.  Which particle numbers are accepted, where each
    state goes, and that the kernels of such systems are the master equations of the given states. *)
From Coq Require Import String List Arith Lia ZArith Bool Permutation Ring Reals Lra QArith.
From Verif Require Import Base Bits Indexing IndexingProofs RemoveProofs Binom SsqProofs Qn
  PropIndexing DMIndex DMIndexProofs DMReach PropDMIndex CRing SpecFunc Layout Coherences Kernel KernelProofs
  PauliProofs CohProofs CohKernels CohCurrents KernelGen MasterEq MasterGen ElPh Rates PropRates Selection ManyBody ManyBodyProofs.
Import ListNotations.
Open Scope nat_scope.
Local Notation length := List.length.

(** ** Specification *)
(** the states with particle number q, in the order of the user's arrays *)
Definition sector (Na : list Z) (q : Z) : list nat := filter (fun i => (nth i Na 0 =? q)%Z) (seq 0 (length Na)).
(** the lists of states follow the particle numbers: list c holds the states with s + c electrons *)
Definition follows (Na : list Z) (s : Z) (dm : DMI) : Prop := forall c, considered dm c = sector Na (s + Z.of_nat c).

Lemma sector_in : forall Na q i, In i (sector Na q) <-> i < length Na /\ nth i Na 0%Z = q.
Proof. intros. unfold sector. rewrite filter_In, in_seq, Z.eqb_eq. intuition lia. Qed.

(** ** The lists *)
Section Lists.
Variables (kd : kind) (Na : list Z) (nmin nmax : Z).
Hypothesis EX : extremes Na nmin nmax.
Let nc := Z.to_nat (nmax - nmin + 1).

Lemma nc_z : Z.of_nat nc = (nmax - nmin + 1)%Z.
Proof. destruct EX as (A & B & C). pose proof (C _ A). unfold nc. lia. Qed.
Lemma na_at : forall i, i < length Na -> nth_error Na i = Some (nth i Na 0%Z) /\ (nmin <= nth i Na 0%Z <= nmax)%Z.
Proof.
  intros i Hi. split; [now apply nth_error_nth'|]. destruct EX as (_ & _ & C). apply C. now apply nth_In.
Qed.
Lemma at_value : forall q, In q Na -> exists i, i < length Na /\ nth i Na 0%Z = q.
Proof. intros q Hq. apply In_nth with (d := 0%Z) in Hq. exact Hq. Qed.

(** the place of a particle number: negative numbers count from the end *)
Definition place (q : Z) : nat := Z.to_nat (if (q <? 0)%Z then q + Z.of_nat nc else q).

Lemma pos_place : (nmin <= 0)%Z -> (-1 <= nmax)%Z -> forall q, (nmin <= q <= nmax)%Z -> py_pos nc q = Some (place q) /\ place q < nc.
Proof.
  intros H0 H1 q Hq. pose proof nc_z as NZ. assert (G : py_pos nc q = Some (place q)).
  { unfold py_pos, place. destruct (Z.leb_spec 0 q), (Z.ltb_spec q 0); try lia.
    - destruct (Z.ltb_spec q (Z.of_nat nc)); [reflexivity|lia].
    - destruct (Z.leb_spec (- Z.of_nat nc) q); [f_equal; f_equal; lia|lia]. }
  split; auto. apply (py_pos_lt _ _ _ G).
Qed.
Lemma place_iff : (nmin <= 0)%Z -> (-1 <= nmax)%Z -> forall q c, (nmin <= q <= nmax)%Z -> c < nc ->
  (place q = c <-> q = (if Z.of_nat c <=? nmax then Z.of_nat c else Z.of_nat c - Z.of_nat nc)%Z).
Proof.
  intros H0 H1 q c Hq Hc. pose proof nc_z as NZ. unfold place.
  destruct (Z.ltb_spec q 0), (Z.leb_spec (Z.of_nat c) nmax); lia.
Qed.

Theorem C67_built : (nmin <= 0)%Z -> (-1 <= nmax)%Z -> exists dm, mb_init kd Na (length Na) = Some dm /\
  dm_ncharge dm = nc /\ length (dm_dictdm dm) = length Na /\
  forall c, considered dm c =
    if c <? nc then sector Na (if (Z.of_nat c <=? nmax)%Z then Z.of_nat c else Z.of_nat c - Z.of_nat nc)%Z else [].
Proof.
  intros H0 H1. unfold mb_init, mb_states. destruct (extremes_eq _ _ _ EX) as (-> & ->). fold nc.
  destruct (fill_some Na (seq 0 (length Na)) (repeat [] nc)) as (st & -> & LN & NT).
  { intros i Hi. apply in_seq in Hi. destruct (na_at i ltac:(lia)) as (A & B).
    destruct (pos_place H0 H1 _ B) as (P & _). rewrite repeat_length. eauto. }
  rewrite repeat_length in LN, NT. cbn [option_map fst snd]. eexists. split; [reflexivity|].
  match goal with |- dm_ncharge ?d = _ /\ _ => set (dm := d) end.
  pose proof (dm_fields kd (si_indexing (mb_si kd)) (ind_qn (mb_si kd)) (qn_ind (mb_si kd)) nc (repeat 0 (length Na)) (st ++ [[]])) as F.
  destruct F as (F1 & F2 & F3 & _ & _ & _ & _ & _ & _ & F10 & _).
  split; [exact F2|]. split.
  { change (dm_dictdm dm) with (dm_dictdm (set_statesdm' kd (si_indexing (mb_si kd)) (ind_qn (mb_si kd)) (qn_ind (mb_si kd)) nc (repeat 0 (length Na)) (st ++ [[]]))).
    rewrite F10, dict_loop_length. apply repeat_length. }
  intros c. unfold considered. change (dm_statesdm dm) with (dm_statesdm (set_statesdm' kd (si_indexing (mb_si kd)) (ind_qn (mb_si kd)) (qn_ind (mb_si kd)) nc (repeat 0 (length Na)) (st ++ [[]]))).
  rewrite F3, nth_app_nil. destruct (Nat.ltb_spec c nc) as [Hc|Hc].
  - rewrite NT by auto. rewrite nth_repeat. simpl. unfold sector. apply filter_ext_in. intros i Hi. apply in_seq in Hi.
    destruct (na_at i ltac:(lia)) as (A & B). unfold lands. rewrite A.
    destruct (pos_place H0 H1 _ B) as (-> & _). pose proof (place_iff H0 H1 _ c B Hc) as PI.
    destruct (Nat.eqb_spec (place (nth i Na 0%Z)) c), (Z.eqb_spec (nth i Na 0%Z) (if Z.of_nat c <=? nmax then Z.of_nat c else Z.of_nat c - Z.of_nat nc)%Z); auto; tauto.
  - apply nth_overflow. lia.
Qed.

Theorem C67_raises : (0 < nmin)%Z \/ (nmax < -1)%Z -> mb_init kd Na (length Na) = None.
Proof.
  intros H. unfold mb_init, mb_states. destruct (extremes_eq _ _ _ EX) as (-> & ->). fold nc.
  pose proof nc_z as NZ. destruct EX as (A & B & C). pose proof (C _ A) as CA.
  destruct H as [H|H].
  - destruct (at_value nmax B) as (i & Hi & Ei). rewrite (fill_none Na _ _ i); auto; [apply in_seq; lia|].
    rewrite repeat_length. intros q Eq. rewrite (nth_error_nth' Na 0%Z Hi), Ei in Eq. injection Eq as <-. unfold py_pos.
    destruct (Z.leb_spec 0 nmax), (Z.ltb_spec nmax (Z.of_nat nc)); auto; try lia.
  - destruct (at_value nmin A) as (i & Hi & Ei). rewrite (fill_none Na _ _ i); auto; [apply in_seq; lia|].
    rewrite repeat_length. intros q Eq. rewrite (nth_error_nth' Na 0%Z Hi), Ei in Eq. injection Eq as <-. unfold py_pos.
    destruct (Z.leb_spec 0 nmin), (Z.leb_spec (- Z.of_nat nc) nmin); auto; try lia.
Qed.

(** exactly when the lists follow the particle numbers *)
Theorem C67_follows : (exists dm s, mb_init kd Na (length Na) = Some dm /\ follows Na s dm) <-> nmin = 0%Z \/ nmax = (-1)%Z.
Proof.
  pose proof nc_z as NZ. destruct EX as (A & B & C). pose proof (C _ A) as CA. split.
  - intros (dm & s & E & F).
    destruct (Z.lt_ge_cases 0 nmin) as [P|P]; [rewrite C67_raises in E by auto; discriminate|].
    destruct (Z.lt_ge_cases nmax (-1)) as [Q|Q]; [rewrite C67_raises in E by auto; discriminate|].
    destruct (Z.eq_dec nmin 0) as [->|N0]; auto. right.
    destruct (Z.eq_dec nmax (-1)) as [->|N1]; auto. exfalso.
    destruct (C67_built P Q) as (dm' & E' & _ & _ & ST). rewrite E in E'. injection E' as <-.
    destruct (at_value nmin A) as (i & Hi & Ei). destruct (at_value nmax B) as (j & Hj & Ej).
    assert (I1 : In i (considered dm (place nmin))).
    { rewrite ST. destruct (pos_place P Q nmin ltac:(lia)) as (_ & PL). destruct (Nat.ltb_spec (place nmin) nc); [|lia].
      apply sector_in. split; auto. rewrite Ei. apply place_iff; auto; lia. }
    assert (I2 : In j (considered dm (place nmax))).
    { rewrite ST. destruct (pos_place P Q nmax ltac:(lia)) as (_ & PL). destruct (Nat.ltb_spec (place nmax) nc); [|lia].
      apply sector_in. split; auto. rewrite Ej. apply place_iff; auto; lia. }
    rewrite F in I1, I2. apply sector_in in I1. apply sector_in in I2. rewrite Ei in I1. rewrite Ej in I2.
    unfold place in I1, I2. destruct (Z.ltb_spec nmin 0), (Z.ltb_spec nmax 0); lia.
  - intros H. destruct (C67_built ltac:(lia) ltac:(lia)) as (dm & E & _ & _ & ST). exists dm, nmin. split; auto.
    intros c. rewrite ST. destruct (Nat.ltb_spec c nc) as [Hc|Hc].
    + f_equal. destruct (Z.leb_spec (Z.of_nat c) nmax); lia.
    + symmetry. destruct (sector Na (nmin + Z.of_nat c)) as [|x l] eqn:S; auto. exfalso.
      assert (X : In x (sector Na (nmin + Z.of_nat c))) by (rewrite S; now left). apply sector_in in X. destruct X as (X1 & X2).
      destruct (na_at x X1). lia.
Qed.

(** every accepted system has well-formed lists *)
Lemma built_ok : forall dm, mb_init kd Na (length Na) = Some dm -> exists lst,
  dm = set_statesdm' kd IxCharge (ind_qn (mb_si kd)) (qn_ind (mb_si kd)) nc (repeat 0 (length Na)) (lst ++ [[]]) /\
  states_ok nc (length (repeat 0 (length Na))) (lst ++ [[]]) /\ length lst = nc /\ (forall c, considered dm c = nth c lst []).
Proof.
  intros dm E.
  destruct (Z.lt_ge_cases 0 nmin) as [P|P]; [rewrite C67_raises in E by auto; discriminate|].
  destruct (Z.lt_ge_cases nmax (-1)) as [Q|Q]; [rewrite C67_raises in E by auto; discriminate|].
  destruct (C67_built P Q) as (dm' & E' & _ & _ & ST). rewrite E in E'. injection E' as <-.
  revert E. unfold mb_init, mb_states. destruct (extremes_eq _ _ _ EX) as (-> & ->). fold nc. destruct (mb_fill Na (seq 0 (length Na)) (repeat [] nc)) as [lst|] eqn:F; [|discriminate].
  cbn [option_map fst snd]. intros E. injection E as E. exists lst.
  assert (IX : si_indexing (mb_si kd) = IxCharge) by (destruct kd; reflexivity).
  assert (D : dm = set_statesdm' kd IxCharge (ind_qn (mb_si kd)) (qn_ind (mb_si kd)) nc (repeat 0 (length Na)) (lst ++ [[]])).
  { rewrite <- IX. symmetry. exact E. }
  split; auto. rewrite repeat_length.
  assert (CO : forall c, considered dm c = nth c lst []).
  { intros c. unfold considered. rewrite D.
    destruct (dm_fields kd IxCharge (ind_qn (mb_si kd)) (qn_ind (mb_si kd)) nc (repeat 0 (length Na)) (lst ++ [[]])) as (_ & _ & -> & _).
    apply nth_app_nil. }
  assert (LN : length lst = nc).
  { destruct (fill_some Na (seq 0 (length Na)) (repeat [] nc)) as (st & F' & LN & _).
    { intros i Hi. apply in_seq in Hi. destruct (na_at i ltac:(lia)) as (A & B).
      destruct (pos_place P Q _ B) as (PP & _). rewrite repeat_length. eauto. }
    rewrite F in F'. injection F' as <-. rewrite repeat_length in LN. auto. }
  split; [|auto]. constructor.
  - rewrite app_length. simpl. lia.
  - rewrite firstn_app, LN, Nat.sub_diag. simpl. rewrite app_nil_r, <- LN, firstn_all.
    apply concat_nodup_key with (key := fun i => place (nth i Na 0%Z)) (c0 := 0).
    + intros c. rewrite <- CO, ST. destruct (c <? nc); [|constructor]. apply NoDup_filter, seq_NoDup.
    + intros c x Hx. rewrite <- CO, ST in Hx. destruct (Nat.ltb_spec c nc) as [Hc|Hc]; [|destruct Hx].
      apply sector_in in Hx. destruct Hx as (X1 & X2). apply place_iff; auto. apply na_at; auto.
  - intros x Hx. rewrite firstn_app, LN, Nat.sub_diag in Hx. simpl in Hx. rewrite app_nil_r, <- LN, firstn_all in Hx.
    apply in_concat in Hx. destruct Hx as (l & Hl & Hx). apply In_nth with (d := []) in Hl. destruct Hl as (c & _ & <-).
    rewrite <- CO, ST in Hx. destruct (c <? nc); [|destruct Hx]. apply sector_in in Hx. tauto.
  - intros c Hc. rewrite nth_app_nil. apply nth_overflow. lia.
Qed.
End Lists.
Print Assumptions C67_built.
Print Assumptions C67_raises.
Print Assumptions C67_follows.

(** ** The numbering of the elements *)
Section Numbers.
Variables (kd : kind) (Na : list Z) (nmin nmax : Z) (dm : DMI).
Hypothesis EX : extremes Na nmin nmax.
Hypothesis MB : mb_init kd Na (length Na) = Some dm.

(** every state is in exactly one list *)
Lemma state_once : forall i, i < length Na -> exists c, In i (considered dm c) /\ forall c', In i (considered dm c') -> c' = c.
Proof.
  intros i Hi. destruct (built_ok kd Na nmin nmax EX dm MB) as (lst & D & SO & LN & CO).
  destruct (Z.lt_ge_cases 0 nmin) as [P|P]; [rewrite (C67_raises kd Na nmin nmax EX) in MB by auto; discriminate|].
  destruct (Z.lt_ge_cases nmax (-1)) as [Q|Q]; [rewrite (C67_raises kd Na nmin nmax EX) in MB by auto; discriminate|].
  destruct (C67_built kd Na nmin nmax EX P Q) as (dm' & E' & _ & _ & ST). rewrite MB in E'. injection E' as <-.
  destruct (na_at Na nmin nmax EX i Hi) as (_ & B). destruct (pos_place Na nmin nmax EX P Q _ B) as (_ & PL).
  exists (place nmin nmax (nth i Na 0%Z)). assert (I : In i (considered dm (place nmin nmax (nth i Na 0%Z)))).
  { rewrite ST. destruct (Nat.ltb_spec (place nmin nmax (nth i Na 0%Z)) (Z.to_nat (nmax - nmin + 1))); [|lia].
    apply sector_in. split; auto. apply (place_iff Na nmin nmax EX P Q); auto. }
  split; auto. intros c' H. rewrite CO in I, H. rewrite <- nth_app_nil in I, H. eapply so_same_block; eauto.
Qed.
Lemma state_bound : forall i c, In i (considered dm c) -> i < length Na.
Proof.
  intros i c H. destruct (built_ok kd Na nmin nmax EX dm MB) as (lst & D & SO & LN & CO). rewrite CO, <- nth_app_nil in H.
  destruct (so_in _ _ _ _ _ SO H) as (_ & X). now rewrite repeat_length in X.
Qed.

(** the diagonal elements are numbered 0, 1, ..., one number for each state; the other numbers follow *)
Theorem C67_numbering :
  dm_npauli dm = length Na /\
  (forall i, i < length Na -> exists c k, In i (considered dm c) /\ k < length Na /\ get_ind_dm0 dm i i c = Some (Z.of_nat k)) /\
  (forall b bp c b' bp' c' k, element dm b bp c -> element dm b' bp' c' ->
     get_ind_dm0 dm b bp c = Some k -> get_ind_dm0 dm b' bp' c' = Some k -> k <> (-1)%Z ->
     c = c' /\ ((b = b' /\ bp = bp') \/ (kd = KDM /\ b = bp' /\ bp = b'))) /\
  (forall k, k < dm_ndm0 dm -> exists b bp c, element dm b bp c /\ get_ind_dm0 dm b bp c = Some (Z.of_nat k)) /\
  (kd <> KPauli -> forall b bp c, In b (considered dm c) -> In bp (considered dm c) ->
     exists k, k < dm_ndm0 dm /\ get_ind_dm0 dm b bp c = Some (Z.of_nat k)).
Proof.
  destruct (built_ok kd Na nmin nmax EX dm MB) as (lst & D & SO & LN & CO).
  set (nc := Z.to_nat (nmax - nmin + 1)) in *.
  assert (Hix : IxCharge <> IxSsq) by discriminate.
  assert (KD : dm_kind dm = kd).
  { rewrite D. apply (dm_fields kd IxCharge (ind_qn (mb_si kd)) (qn_ind (mb_si kd)) nc (repeat 0 (length Na)) (lst ++ [[]])). }
  assert (CO' : forall c, considered dm c = nth c (lst ++ [[]]) []) by (intros; rewrite nth_app_nil; apply CO).
  assert (NP : dm_npauli dm = length Na).
  { rewrite D, dm_npauli_eq by auto. rewrite <- (map_length snd). rewrite <- (seq_length (length Na) 0).
    apply Permutation_length, NoDup_Permutation; [|apply seq_NoDup|].
    - pose proof (D_nodup nc (repeat 0 (length Na)) (lst ++ [[]]) SO) as ND.
      assert (X : forall l, NoDup l -> (forall c b, In (c, b) l -> In b (nth c (lst ++ [[]]) [])) -> NoDup (map (@snd nat nat) l)).
      { induction l as [|[c b] l IH]; intros N1 N2; simpl; [constructor|]. inversion N1 as [|x y U V]; subst x y.
        constructor; [|apply IH; auto; intros; apply N2; now right].
        intros W. apply in_map_iff in W. destruct W as ([c' b'] & E1 & W). simpl in E1. subst b'.
        assert (c' = c) by (eapply so_same_block; [exact SO|apply N2; right; exact W|apply N2; now left]). subst c'. auto. }
      apply X; auto. intros c b H. apply (D_in nc (repeat 0 (length Na)) (lst ++ [[]]) SO). exact H.
    - intros i. rewrite in_map_iff, in_seq. split.
      + intros ([c b] & E1 & H). simpl in E1. subst b. apply (D_in nc (repeat 0 (length Na)) (lst ++ [[]]) SO) in H.
        rewrite <- CO' in H. apply state_bound in H. lia.
      + intros H. destruct (state_once i ltac:(lia)) as (c & I & _). exists (c, i). split; auto.
        apply (D_in nc (repeat 0 (length Na)) (lst ++ [[]]) SO). now rewrite <- CO'. }
  split; auto. split; [|split; [|split]].
  - intros i Hi. destruct (state_once i Hi) as (c & I & _). rewrite CO' in I.
    destruct (num_diag kd IxCharge (ind_qn (mb_si kd)) (qn_ind (mb_si kd)) nc _ _ SO Hix i c I) as (k & K1 & K2 & _).
    rewrite <- D in K1, K2. exists c, k. rewrite CO'. repeat split; auto. lia.
  - intros b bp c b' bp' c' k (E1 & E2 & E3) (E4 & E5 & E6) G1 G2 NE. rewrite CO' in *. rewrite KD in *.
    rewrite D in G1, G2. eapply (num_inj kd IxCharge (ind_qn (mb_si kd)) (qn_ind (mb_si kd)) nc _ _ SO Hix); eauto.
  - intros k Hk. rewrite D in Hk.
    destruct (num_inverse kd IxCharge (ind_qn (mb_si kd)) (qn_ind (mb_si kd)) nc _ _ SO Hix k Hk) as (b & bp & c & H1 & H2 & H3 & H4 & H5 & H6).
    rewrite <- D in *. exists b, bp, c. unfold element. rewrite !CO', KD. repeat split; auto.
    intros ->. symmetry. apply H6. clear -D Hk. rewrite D in *. rewrite dm_ndm0_eq in Hk by (auto; discriminate).
    rewrite dm_npauli_eq by (auto; discriminate). simpl in Hk. lia.
  - intros HK b bp c Hb Hbp. rewrite CO' in *. destruct (Nat.eq_dec b bp) as [<-|Hne].
    + destruct (num_diag kd IxCharge (ind_qn (mb_si kd)) (qn_ind (mb_si kd)) nc _ _ SO Hix b c Hb) as (k & K1 & K2 & _).
      rewrite <- D in K1, K2. exists k. split; auto.
      assert (dm_npauli dm <= dm_ndm0 dm); [|lia]. rewrite D, dm_ndm0_eq, dm_npauli_eq by (auto; discriminate). lia.
    + assert (HO : exists x y, ((x = b /\ y = bp) \/ (kd = KDM /\ x = bp /\ y = b)) /\ In (c, (x, y)) (off_items kd IxCharge (ind_qn (mb_si kd)) nc (lst ++ [[]]))).
      { destruct (O_complete kd IxCharge (ind_qn (mb_si kd)) (qn_ind (mb_si kd)) nc _ _ SO c b bp HK Hb Hbp Hne eq_refl) as [X|X].
        - exists b, bp. auto.
        - destruct kd; [congruence| |].
          + exists bp, b. auto.
          + exists b, bp. split; auto. eapply (O_dmc KDMc); eauto. }
      destruct HO as (x & y & XY & HO).
      destruct (num_off kd IxCharge (ind_qn (mb_si kd)) (qn_ind (mb_si kd)) nc _ _ SO Hix x y c HO) as (k & K1 & K2 & _ & _ & K3).
      rewrite <- D in *. exists k. destruct XY as [(-> & ->)|(-> & -> & ->)]; (split; [lia|auto]).
      apply (K3 eq_refl).
Qed.
End Numbers.
Print Assumptions C67_numbering.

(** ** The kernels *)
(** the golden-rule rate of the transition t -> s at lead l, for states with particle numbers n, energies E and
    tunneling amplitudes T *)
Definition golden_of (n : nat -> Z) (T : nat -> nat -> nat -> Cx RRing) (E mu tl dm dp : nat -> R) (it l s t : nat) : R :=
  let x := re (rmul (T l t s) (T l s t)) in
  (if (n s =? n t + 1)%Z then x * fst (fpauli mu tl dm dp it l (E s - E t))
   else if (n t =? n s + 1)%Z then x * snd (fpauli mu tl dm dp it l (E t - E s)) else 0)%R.
(** the change of the occupation of state s due to lead l *)
Definition flow_of (m : nat) n T E mu tl dm dp it (p : nat -> R) (l s : nat) : R :=
  @rsum RRing nat (fun t => golden_of n T E mu tl dm dp it l s t * p t - golden_of n T E mu tl dm dp it l t s * p s)%R (seq 0 m).

Section Kernels.
Variables (Na : list Z) (nmin nmax : Z) (dm : DMI).
Hypothesis EX : extremes Na nmin nmax.
Hypothesis MB : mb_init KDM Na (length Na) = Some dm.
Local Notation L := (lay_of dm).
(** the list that holds state i *)
Definition list_of (i : nat) : nat := place nmin nmax (nth i Na 0%Z).
Local Notation N := list_of.
Local Notation SS := (cons_states L).

Lemma bounds : (nmin <= 0)%Z /\ (-1 <= nmax)%Z.
Proof.
  destruct (Z.lt_ge_cases 0 nmin) as [P|P]; [pose proof MB as M; rewrite (C67_raises KDM Na nmin nmax EX) in M by auto; discriminate|].
  destruct (Z.lt_ge_cases nmax (-1)) as [Q|Q]; [pose proof MB as M; rewrite (C67_raises KDM Na nmin nmax EX) in M by auto; discriminate|]. lia.
Qed.
Lemma mb_layout : layout L.
Proof.
  destruct (built_ok KDM Na nmin nmax EX dm MB) as (lst & D & SO & LN & CO).
  apply (layout_made IxCharge _ _ _ _ lst ltac:(discriminate) SO dm D).
Qed.
Lemma in_list : forall i c, In i (considered dm c) <-> i < length Na /\ N i = c.
Proof.
  intros i c. destruct bounds as (P & Q). split.
  - intros H. pose proof (state_bound KDM Na nmin nmax dm EX MB i c H) as B. split; auto.
    destruct (C67_built KDM Na nmin nmax EX P Q) as (dm' & E' & _ & _ & ST). rewrite MB in E'. injection E' as <-.
    rewrite ST in H. destruct (Nat.ltb_spec c (Z.to_nat (nmax - nmin + 1))); [|destruct H].
    apply sector_in in H. apply (place_iff Na nmin nmax EX P Q); auto; try tauto. apply (na_at Na nmin nmax EX); auto.
  - intros (B & <-).
    destruct (C67_built KDM Na nmin nmax EX P Q) as (dm' & E' & _ & _ & ST). rewrite MB in E'. injection E' as <-.
    destruct (na_at Na nmin nmax EX i B) as (_ & NB). destruct (pos_place Na nmin nmax EX P Q _ NB) as (_ & PL).
    rewrite ST. unfold list_of in *. destruct (Nat.ltb_spec (place nmin nmax (nth i Na 0%Z)) (Z.to_nat (nmax - nmin + 1))); [|lia].
    apply sector_in. split; auto. apply (place_iff Na nmin nmax EX P Q); auto.
Qed.
Lemma in_states : forall i c, (0 <= c)%Z -> (In i (states L c) <-> i < length Na /\ Z.of_nat (N i) = c).
Proof.
  intros i c Hc. rewrite <- (Z2Nat.id c) at 1 by auto. rewrite states_nat, in_list. intuition lia.
Qed.
Lemma mb_CH : forall c b, (0 <= c)%Z -> In b (states L c) -> N b = Z.to_nat c.
Proof. intros c b Hc H. apply in_states in H; auto. lia. Qed.
Lemma cons_iff : forall i, In i SS <-> i < length Na.
Proof.
  intros i. split.
  - intros H. apply (cons_block_of L N mb_CH) in H. apply in_states in H; lia.
  - intros H. apply (cons_in L mb_layout (Z.of_nat (N i))); [lia|]. apply in_states; lia.
Qed.

(** the considered states are the given ones *)
Theorem C67_states : Permutation SS (seq 0 (length Na)).
Proof.
  apply NoDup_Permutation; [|apply seq_NoDup|intros; rewrite cons_iff, in_seq; lia].
  unfold cons_states, charges. assert (G : forall l, NoDup l -> NoDup (flat_map (states L) (map Z.of_nat l))).
  { induction l as [|c l IH]; intros ND; [constructor|]. inversion ND as [|? ? X Y]; subst. cbn [map flat_map].
    apply NoDup_app_intro; auto.
    - apply (lo_nodup L mb_layout). lia.
    - intros i A B. apply in_flat_map in B. destruct B as (q & Hq & B). apply in_map_iff in Hq. destruct Hq as (c' & <- & Hc').
      apply in_states in A; [|lia]. apply in_states in B; [|lia]. assert (c = c') by lia. congruence. }
  apply G, seq_NoDup.
Qed.

(** in the good cases neighbouring lists mean neighbouring particle numbers *)
Lemma good_step : nmin = 0%Z \/ nmax = (-1)%Z -> forall s t, s < length Na -> t < length Na ->
  (Z.of_nat (N s) =? Z.of_nat (N t) + 1)%Z = (nth s Na 0 =? nth t Na 0 + 1)%Z.
Proof.
  intros G s t Hs Ht. destruct (na_at Na nmin nmax EX s Hs) as (_ & A). destruct (na_at Na nmin nmax EX t Ht) as (_ & B).
  pose proof (nc_z Na nmin nmax EX) as NZ. unfold list_of, place.
  apply eq_true_iff_eq. rewrite !Z.eqb_eq.
  destruct (Z.ltb_spec (nth s Na 0%Z) 0), (Z.ltb_spec (nth t Na 0%Z) 0); lia.
Qed.

Section Golden.
Variables (nl : nat) (T : nat -> nat -> nat -> Cx RRing) (E mu tl dm_ dp : nat -> R) (it : nat).
Local Notation pf := (pauli_fct L nl T E mu tl dm_ dp it).
Local Notation kern := (kern_of RRing L (pauli_calls RRing L nl pf)).
(** the number of the diagonal element of state s *)
Definition dnum (s : nat) : Z := ind0 L s s (Z.of_nat (N s)).
Local Notation num := (fun i => Z.of_nat (N i)).
Local Notation code_rate := (rate RRing N (fun l s t => pf l (ind1 L s t (Z.of_nat (N t))) false)
                                          (fun l s t => pf l (ind1 L s t (Z.of_nat (N t))) true)).
Lemma code_golden_of : forall l s t, In s SS -> In t SS -> (l < nl)%nat -> code_rate l s t = golden_of num T E mu tl dm_ dp it l s t.
Proof.
  intros l s t Hs Ht Hl. apply (cons_block_of L N mb_CH) in Hs. apply (cons_block_of L N mb_CH) in Ht.
  unfold rate, golden_of.
  destruct (Nat.eqb_spec (N s) (S (N t))) as [e|e], (Z.eqb_spec (Z.of_nat (N s)) (Z.of_nat (N t) + 1)); try lia.
  - assert (Hs' : In s (states L (Z.of_nat (N t) + 1))) by (replace (Z.of_nat (N t) + 1)%Z with (Z.of_nat (N s)) by lia; auto).
    rewrite (pauli_fct_val L mb_layout); auto; try reflexivity; lia.
  - destruct (Nat.eqb_spec (N t) (S (N s))) as [e'|e'], (Z.eqb_spec (Z.of_nat (N t)) (Z.of_nat (N s) + 1)); try lia; auto.
    assert (Ht' : In t (states L (Z.of_nat (N s) + 1))) by (replace (Z.of_nat (N s) + 1)%Z with (Z.of_nat (N t)) by lia; auto).
    rewrite (pauli_fct_val L mb_layout); auto; try lia. f_equal. f_equal. apply cplx_eq; rewrite ?re_mul, ?im_mul; rring.
Qed.
Lemma dens_num : forall phi s, In s SS -> re (dens RRing L N phi s s) = phi (dnum s).
Proof.
  intros phi s Hs. apply (cons_block_of L N mb_CH) in Hs. rewrite (dens_at RRing L N mb_CH phi s s (Z.of_nat (N s))) by (auto; lia).
  now rewrite (rho_diag_real RRing L mb_layout) by (auto; lia).
Qed.
Lemma flow_code : forall phi l s, In s SS -> (l < nl)%nat ->
  rate_lead RRing SS N (fun l s t => pf l (ind1 L s t (Z.of_nat (N t))) false)
                       (fun l s t => pf l (ind1 L s t (Z.of_nat (N t))) true)
                       (fun s => re (dens RRing L N phi s s)) l s =
  flow_of (length Na) num T E mu tl dm_ dp it (fun s => phi (dnum s)) l s.
Proof.
  intros phi l s Hs Hl. unfold rate_lead, flow_of. rewrite (rsum_perm RRing _ _ _ _ C67_states).
  apply rsum_ext. intros t Ht. apply in_seq in Ht. assert (In t SS) by (apply cons_iff; lia).
  rewrite (code_golden_of l s t), (code_golden_of l t s), !dens_num by auto. reflexivity.
Qed.
(** whatever the particle numbers: the kernel is the rate equation of the lists *)
Theorem C67_pauli_any : forall phi s, s < length Na ->
  act RRing (ly_npauli L) kern phi (dnum s) =
  rsum (fun l => flow_of (length Na) num T E mu tl dm_ dp it (fun t => phi (dnum t)) l s : RRing) (leads nl).
Proof.
  intros phi s Hs. unfold dnum at 1. rewrite (gen46_pauli RRing L mb_layout N mb_CH).
  - apply rsum_ext. intros l Hl. unfold leads in Hl. apply in_seq in Hl. apply flow_code; [apply cons_iff; auto|lia].
  - lia.
  - apply in_states; lia.
Qed.
Lemma flow_good : nmin = 0%Z \/ nmax = (-1)%Z -> forall p l s, s < length Na ->
  flow_of (length Na) num T E mu tl dm_ dp it p l s = flow_of (length Na) (fun i => nth i Na 0%Z) T E mu tl dm_ dp it p l s.
Proof.
  intros G p l s Hs. unfold flow_of. apply (rsum_ext RRing). intros t Ht. apply in_seq in Ht. unfold golden_of.
  now rewrite !(good_step G) by lia.
Qed.
(** it is the rate equation of the given states exactly when the particle numbers start at 0 (or end at -1) *)
Theorem C67_pauli : nmin = 0%Z \/ nmax = (-1)%Z -> forall phi s, s < length Na ->
  act RRing (ly_npauli L) kern phi (dnum s) =
  rsum (fun l => flow_of (length Na) (fun i => nth i Na 0%Z) T E mu tl dm_ dp it (fun t => phi (dnum t)) l s : RRing) (leads nl).
Proof.
  intros G phi s Hs. rewrite C67_pauli_any by auto. apply rsum_ext. intros l _. now apply flow_good.
Qed.
Lemma flow_sum0 : forall n p l, @rsum RRing nat (fun s => flow_of (length Na) n T E mu tl dm_ dp it p l s) (seq 0 (length Na)) = 0%R.
Proof.
  intros n p l. unfold flow_of. set (g := golden_of n T E mu tl dm_ dp it l).
  transitivity (rsum (fun s => rsub (rsum (fun t => (g s t * p t)%R : RRing) (seq 0 (length Na)))
                                     (rsum (fun t => (g t s * p s)%R : RRing) (seq 0 (length Na)))) (seq 0 (length Na))).
  { apply (rsum_ext RRing). intros s _. rewrite <- (rsum_minus RRing). reflexivity. }
  rewrite (rsum_minus RRing). rewrite (rsum_swap RRing _ _ (fun s t => (g s t * p t)%R : RRing)). rring.
Qed.
(** the particle current is the change of the particle number, the energy current that of the energy *)
Theorem C67_pauli_currents : nmin = 0%Z \/ nmax = (-1)%Z -> forall phi l, (l < nl)%nat ->
  let dp' := flow_of (length Na) (fun i => nth i Na 0%Z) T E mu tl dm_ dp it (fun t => phi (dnum t)) l in
  pauli_current RRing L phi pf l = rsum (fun s => (IZR (nth s Na 0%Z) * dp' s)%R : RRing) (seq 0 (length Na)) /\
  pauli_energy_current RRing L phi pf E l = rsum (fun s => (E s * dp' s)%R : RRing) (seq 0 (length Na)).
Proof.
  intros G phi l Hl dp'. destruct (gen47_pauli RRing L mb_layout N mb_CH pf phi E l) as (A & B). cbv zeta in A, B.
  assert (F : forall s, s < length Na -> rate_lead RRing SS N (fun l s t => pf l (ind1 L s t (Z.of_nat (N t))) false)
                       (fun l s t => pf l (ind1 L s t (Z.of_nat (N t))) true)
                       (fun s => re (dens RRing L N phi s s)) l s = dp' s).
  { intros s Hs. rewrite flow_code by (auto; now apply cons_iff). unfold dp'. now apply flow_good. }
  rewrite A, B. split.
  - rewrite (rsum_perm RRing _ _ _ _ C67_states).
    assert (RN : forall m, rnat RRing m = INR m).
    { induction m; [reflexivity|]. rewrite S_INR. cbn [rnat]. rewrite IHm. reflexivity. }
    assert (SH : exists z, forall s, s < length Na -> rnat RRing (N s) = (IZR (nth s Na 0%Z) + IZR z)%R).
    { exists (- nmin)%Z. intros s Hs. rewrite RN, <- plus_IZR, INR_IZR_INZ. f_equal. unfold list_of, place.
      pose proof (nc_z Na nmin nmax EX) as NZ. destruct (na_at Na nmin nmax EX s Hs) as (_ & X).
      destruct (Z.ltb_spec (nth s Na 0%Z) 0); lia. }
    destruct SH as (z & SH).
    transitivity (rsum (fun s => radd ((IZR (nth s Na 0%Z) * dp' s)%R : RRing) (rmul (IZR z : RRing) (dp' s : RRing))) (seq 0 (length Na))).
    { apply rsum_ext. intros s Hs. apply in_seq in Hs. rewrite F, SH by lia. rring. }
    rewrite rsum_plus, rsum_mul_l. unfold dp' at 2.
    match goal with |- radd ?a (rmul ?b ?c) = _ => assert (X : c = 0%R) by (apply flow_sum0); rewrite X end. rring.
  - rewrite (rsum_perm RRing _ _ _ _ C67_states). apply rsum_ext. intros s Hs. apply in_seq in Hs. rewrite F by lia. reflexivity.
Qed.
End Golden.
End Kernels.
Print Assumptions C67_pauli_any.
Print Assumptions C67_pauli.
Print Assumptions C67_pauli_currents.

(** ** The approaches with coherences *)
Section Coherent.
Variables (Na : list Z) (nmin nmax : Z) (dm : DMI).
Hypothesis EX : extremes Na nmin nmax.
Hypothesis MB : mb_init KDM Na (length Na) = Some dm.
Hypothesis GOOD : nmin = 0%Z \/ nmax = (-1)%Z.
(** the particle numbers, counted from the smallest *)
Variable N : nat -> nat.
Hypothesis HN : forall i, i < length Na -> Z.of_nat (N i) = (nth i Na 0 - nmin)%Z.
Variable K : CRing.
Local Notation L := (lay_of dm).
Local Notation SS := (cons_states L).
Local Open Scope rng_scope.

Lemma good_list : forall i, i < length Na -> list_of Na nmin nmax i = N i.
Proof.
  intros i Hi. pose proof (HN i Hi) as H. destruct (na_at Na nmin nmax EX i Hi) as (_ & B).
  pose proof (nc_z Na nmin nmax EX) as NZ. unfold list_of, place. destruct (Z.ltb_spec (nth i Na 0%Z) 0); lia.
Qed.
Lemma good_CH : forall c b, (0 <= c)%Z -> In b (states L c) -> N b = Z.to_nat c.
Proof.
  intros c b Hc H. apply (in_states Na nmin nmax dm EX MB) in H; auto. destruct H as (H1 & H2). rewrite good_list in H2 by auto. lia.
Qed.
Let LO : layout L := mb_layout Na nmin nmax dm EX MB.

Theorem C67_lindblad : forall nl (h : K) tL E phi, h + h = 1 ->
  let kern := kern_of K L (lindblad_calls K L nl h tL E) in
  (forall b bp c, el L b bp c -> rho K L (act K (ly_ndm0r L) kern phi) b bp c =
     master K SS E nl (lindblad_lead K SS N h tL) (dens K L N phi) b bp) /\
  (forall l, let dr := lindblad_lead K SS N h tL (dens K L N phi) l in
     lindblad_current K L phi tL l = rsum (fun s => rnat K (N s) * re (dr s s)) SS /\
     lindblad_energy_current K L phi h tL E l = rsum (fun s => E s * re (dr s s)) SS) /\
  (forall j, (j < ly_ndm0r L)%nat -> trace_column K L kern j = 0).
Proof.
  intros nl h tL E phi Hh kern. split; [|split].
  - intros. apply gen46_lindblad; auto. exact good_CH.
  - intros l. apply gen47_lindblad; auto. exact good_CH.
  - apply (gen_lindblad K L LO N good_CH nl h tL E Hh).
Qed.
Theorem C67_vn1 : forall nl (h : K) T F E phi, h + h = 1 -> hermitian K T ->
  let kern := kern_of K L (vn1_calls K L nl T F E) in
  let lead := vn1_lead K SS N T (tab K L N F false) (tab K L N F true) in
  (forall b bp c, el L b bp c -> rho K L (act K (ly_ndm0r L) kern phi) b bp c = master K SS E nl lead (dens K L N phi) b bp) /\
  (forall l, vn1_current K L phi T F l = rsum (fun s => rnat K (N s) * re (lead (dens K L N phi) l s s)) SS) /\
  (forall j, (j < ly_ndm0r L)%nat -> trace_column K L kern j = 0).
Proof.
  intros nl h T F E phi Hh HT kern lead. split; [|split].
  - intros. apply (gen46_vn1 K L LO N good_CH nl h); auto.
  - intros l. apply (gen47_vn1 K L LO N good_CH h); auto.
  - apply (gen_vn1 K L LO N good_CH nl T F E).
Qed.
Theorem C67_redfield : forall nl (h : K) T F E phi, h + h = 1 -> hermitian K T ->
  let kern := kern_of K L (red_calls K L nl T F E) in
  let lead := red_lead K SS N T (tab K L N F false) (tab K L N F true) in
  (forall b bp c, el L b bp c -> rho K L (act K (ly_ndm0r L) kern phi) b bp c = master K SS E nl lead (dens K L N phi) b bp) /\
  (forall l, red_current K L phi T F l = rsum (fun s => rnat K (N s) * re (lead (dens K L N phi) l s s)) SS) /\
  (forall j, (j < ly_ndm0r L)%nat -> trace_column K L kern j = 0).
Proof.
  intros nl h T F E phi Hh HT kern lead. split; [|split].
  - intros. apply (gen46_redfield K L LO N good_CH nl h); auto.
  - intros l. apply (gen47_redfield K L LO N good_CH h); auto.
  - apply (gen_redfield K L LO N good_CH nl T F E).
Qed.
(** every coherence between states with the same particle number is an element *)
Theorem C67_elements : forall b bp, b < length Na -> bp < length Na -> nth b Na 0%Z = nth bp Na 0%Z -> el L b bp (Z.of_nat (N b)).
Proof.
  intros b bp Hb Hbp E.
  assert (NE : N b = N bp) by (pose proof (HN b Hb); pose proof (HN bp Hbp); lia).
  assert (IB : In b (considered dm (N b))) by (apply (in_list Na nmin nmax dm EX MB); split; auto; now apply good_list).
  assert (IP : In bp (considered dm (N b))) by (apply (in_list Na nmin nmax dm EX MB); split; auto; rewrite NE; now apply good_list).
  repeat split; try lia.
  - now rewrite states_nat.
  - now rewrite states_nat.
  - destruct (proj2 (proj2 (proj2 (proj2 (C67_numbering KDM Na nmin nmax dm EX MB)))) ltac:(discriminate) b bp (N b) IB IP) as (k & K1 & K2).
    destruct (built_ok KDM Na nmin nmax EX dm MB) as (lst & D & SO & LN & CO).
    rewrite (made_ind0 _ _ _ _ _ _ dm D b bp (N b) _ K2). lia.
Qed.
End Coherent.
Print Assumptions C67_lindblad.
Print Assumptions C67_vn1.
Print Assumptions C67_redfield.
Print Assumptions C67_elements.

(** ** Particle numbers of both signs *)
(** one state with -1 electrons and one with 0: the kernel moves electrons the wrong way *)
Lemma ex_mixed : extremes [-1; 0]%Z (-1)%Z 0%Z.
Proof. unfold extremes. simpl. repeat split; auto; lia. Qed.
Theorem C67_negative_refuted : ~ (forall Na nmin nmax dm, extremes Na nmin nmax -> mb_init KDM Na (length Na) = Some dm ->
  forall nl T E mu tl dm_ dp it, hermitian RRing T -> (forall l, (0 < tl l)%R) -> forall phi s, s < length Na ->
  act RRing (ly_npauli (lay_of dm)) (kern_of RRing (lay_of dm) (pauli_calls RRing (lay_of dm) nl (pauli_fct (lay_of dm) nl T E mu tl dm_ dp it)))
    phi (dnum Na nmin nmax dm s) =
  rsum (fun l => flow_of (length Na) (fun i => nth i Na 0%Z) T E mu tl dm_ dp it (fun t => phi (dnum Na nmin nmax dm t)) l s : RRing) (leads nl)).
Proof.
  intros H. destruct (C67_built KDM [-1; 0]%Z (-1) 0 ex_mixed ltac:(lia) ltac:(lia)) as (dm & MB & _).
  set (T := fun (_ a b : nat) => @ofR RRing (if a =? b then 0%R else 1%R)).
  assert (HT : hermitian RRing T).
  { intros l a b. unfold T. rewrite (Nat.eqb_sym b a). destruct (a =? b)%nat; apply cplx_eq; cbn [re im conj ofR]; rring. }
  specialize (H _ _ _ dm ex_mixed MB 1 T (fun _ => 0%R) (fun _ => 1%R) (fun _ => 1%R) (fun _ => 0%R) (fun _ => 0%R) 3 HT
    ltac:(intros; lra) (fun k => if Z.eq_dec k (dnum [-1; 0]%Z (-1) 0 dm 0) then 0%R else 1%R) 1 ltac:(simpl; lia)).
  rewrite (C67_pauli_any [-1; 0]%Z (-1) 0 dm ex_mixed MB) in H by (simpl; lia).
  assert (NE : dnum [-1; 0]%Z (-1) 0 dm 1 <> dnum [-1; 0]%Z (-1) 0 dm 0).
  { pose proof (in_states [-1; 0]%Z (-1) 0 dm ex_mixed MB) as IS. intros X.
    pose proof (mb_layout [-1; 0]%Z (-1) 0 dm ex_mixed MB) as LO. unfold dnum in X.
    destruct (lo_diag _ LO 1 (Z.of_nat (list_of [-1; 0]%Z (-1) 0 1)) ltac:(lia)) as (R & _); [apply IS; simpl; lia|].
    destruct (lo_inj _ LO 1 1 (Z.of_nat (list_of [-1; 0]%Z (-1) 0 1)) 0 0 (Z.of_nat (list_of [-1; 0]%Z (-1) 0 0))) as (_ & [[Y _]|[Y _]]);
      try lia; try (apply IS; simpl; lia); try discriminate. }
  revert H. unfold leads, flow_of, golden_of. cbn [rsum seq length].
  destruct (Z.eq_dec _ _) as [_|]; [|congruence]. destruct (Z.eq_dec _ _) as [|_]; [congruence|].
  change (list_of [-1; 0]%Z (-1) 0 0) with 1. change (list_of [-1; 0]%Z (-1) 0 1) with 0. cbn [nth Z.of_nat Z.eqb Z.add Z.opp Pos.eqb Pos.of_succ_nat Z.pos_sub].
  unfold T. cbn [Nat.eqb]. intros H. rewrite !re_mul in H. cbn [re im ofR] in H. unfold fpauli in H.
  rewrite !func_pauli_eq in H. cbv zeta in H. cbn [in_band fst snd] in H.
  assert (F : (fermi_func ((0 - 0 - 1) / 1) = 1 / (exp (-1) + 1))%R).
  { replace ((0 - 0 - 1) / 1)%R with (-1)%R by field. unfold fermi_func. assert (C : cut = (70977 / 100)%R) by reflexivity.
    destruct (Rlt_dec cut (-1)); [lra|]. reflexivity. }
  revert H. rsimp. intros H. rewrite F in H. pose proof PI_RGT_0 as PP.
  assert (E1 : (0 < exp (-1) < 1)%R).
  { split; [apply exp_pos|]. rewrite <- exp_0. apply exp_increasing. lra. }
  assert (E2 : (1 / (exp (-1) + 1) > 1 / 2)%R).
  { unfold Rdiv. rewrite !Rmult_1_l. apply Rinv_lt_contravar; lra. }
  set (f := (1 / (exp (-1) + 1))%R) in *. match type of H with ?a = ?b => change (@eq R a b) in H end.
  assert (B : in_band (0 - 0) 1 1 0 0 3 = true) by reflexivity. rewrite B in H. nra.
Qed.
Print Assumptions C67_negative_refuted.

(** ** Selection of states *)
Lemma set_states : forall kd dm lst r dm', mb_set kd dm lst = Some (r, dm') -> forall c, considered dm' c = nth c lst [].
Proof.
  intros kd dm lst r dm' H c. unfold mb_set in H. destruct (_ <=? _); [|discriminate]. injection H as _ <-.
  unfold considered.
  destruct (dm_fields kd (si_indexing (mb_si kd)) (ind_qn (mb_si kd)) (qn_ind (mb_si kd)) (dm_ncharge dm) (dm_dictdm dm) (lst ++ [[]])) as (_ & _ & F & _).
  refine (eq_trans (f_equal (fun l => nth c l []) _) (nth_app_nil lst c)). exact F.
Qed.
Lemma nth_upd_nth_eq : forall A (f : A -> A) d l k, k < length l -> nth k (upd_nth k f l) d = f (nth k l d).
Proof. induction l; destruct k; simpl; intros; try lia; auto. apply IHl. lia. Qed.
Lemma nth_upd_nth_neq : forall A (f : A -> A) d l k m, m <> k -> nth m (upd_nth k f l) d = nth m l d.
Proof. induction l; destruct k, m; simpl; intros; auto; lia. Qed.
Lemma low_zero : forall E Emax cl cs st st', (forall bs x, In bs cl -> In x bs -> x = 0) -> (forall c x, In x (nth c st []) -> x = 0) ->
  mb_low E Emax cl cs st = Some st' -> forall c x, In x (nth c st' []) -> x = 0.
Proof.
  induction cs as [|c0 cs IH]; intros st st' HC HS H; simpl in H.
  - injection H as <-. auto.
  - destruct (nth_error cl c0) as [bs|] eqn:EB; [|discriminate].
    assert (BZ : forall x, In x (filter (fun b => q_lt (nth b E 0%Q) Emax) bs) -> x = 0).
    { intros x Hx. apply filter_In in Hx. apply nth_error_In in EB. eapply HC; eauto. apply Hx. }
    destruct (filter _ bs) as [|y ys]; [now apply (IH st st')|].
    destruct (Nat.ltb_spec c0 (length st)); [|discriminate].
    refine (IH _ _ HC _ H). intros c x Hx. destruct (Nat.eq_dec c c0) as [->|NE].
    + rewrite nth_upd_nth_eq in Hx by auto. apply in_app_iff in Hx. destruct Hx; eauto.
    + rewrite nth_upd_nth_neq in Hx by auto. eauto.
Qed.
Lemma charge0 : forall kd bs x, In bs (si_chargelst (mb_si kd)) -> In x bs -> x = 0.
Proof. intros kd bs x H Hx. destruct kd; vm_compute in H; destruct H as [<-|H]; try (destruct H as [<-|[]]); simpl in Hx; intuition. Qed.

(** use_all_states and remove_states leave at most the first state, or raise (always for the approaches with
    StateIndexingDM when there are two or more particle numbers) *)
Theorem C67_selection : forall kd Na dm, mb_init kd Na (length Na) = Some dm ->
  (forall r dm' c i, mb_use_all kd (si_chargelst (mb_si kd)) dm = Some (r, dm') -> In i (considered dm' c) -> i = 0) /\
  (forall E dE r dm' c i, mb_remove_states kd (si_chargelst (mb_si kd)) dm E dE = Some (r, dm') -> In i (considered dm' c) -> i = 0) /\
  (kd = KDM -> 2 <= dm_ncharge dm -> mb_use_all kd (si_chargelst (mb_si kd)) dm = None /\
     forall E dE, mb_remove_states kd (si_chargelst (mb_si kd)) dm E dE = None).
Proof.
  intros kd Na dm MB. split; [|split].
  - intros r dm' c i H I. rewrite (set_states _ _ _ _ _ H) in I. destruct (nth_in_or_default c (si_chargelst (mb_si kd)) []) as [X|X].
    + eapply charge0; eauto.
    + rewrite X in I. destruct I.
  - intros E dE r dm' c i H I. unfold mb_remove_states in H. destruct (min_energy E); [|discriminate].
    destruct (mb_low _ _ _ _ _) as [st|] eqn:ML; [|discriminate].
    destruct (mb_set kd dm st) as [[r' d']|] eqn:MS; [|discriminate]. injection H as _ <-.
    rewrite (set_states _ _ _ _ _ MS) in I. eapply (low_zero _ _ _ _ _ _ (charge0 kd)); [|exact ML|exact I].
    intros c' x Hx. rewrite nth_repeat in Hx. destruct Hx.
  - intros -> H. assert (CL : si_chargelst (mb_si KDM) = [[0]]) by reflexivity. rewrite CL. split.
    + unfold mb_use_all, mb_set. cbn [length]. destruct (Nat.leb_spec (dm_ncharge dm) 1); [lia|auto].
    + intros E dE. unfold mb_remove_states. destruct (min_energy E) as [m|]; auto.
      destruct (dm_ncharge dm) as [|[|k]]; try lia. cbn [seq mb_low nth_error].
      destruct (filter _ [0]); cbn [seq mb_low nth_error Nat.ltb]; auto.
Qed.
(** so the states cannot be restored by use_all_states *)
Theorem C67_use_all_refuted : ~ (forall kd Na dm, mb_init kd Na (length Na) = Some dm ->
  exists r dm', mb_use_all kd (si_chargelst (mb_si kd)) dm = Some (r, dm') /\ forall c, considered dm' c = considered dm c).
Proof.
  intros H. destruct (mb_init KDM [0; 1]%Z 2) as [dm|] eqn:MB; [|vm_compute in MB; discriminate].
  destruct (H KDM [0; 1]%Z dm MB) as (r & dm' & U & _). vm_compute in MB. injection MB as <-. vm_compute in U. discriminate.
Qed.
(** nor can the low-energy states be kept: every state is below any bound here *)
Theorem C67_remove_states_refuted : ~ (forall kd Na dm E dE, mb_init kd Na (length Na) = Some dm -> length E = length Na ->
  (forall i, i < length Na -> (nth i E 0 == 0)%Q) -> (0 < dE)%Q ->
  exists r dm', mb_remove_states kd (si_chargelst (mb_si kd)) dm E dE = Some (r, dm') /\ forall c, considered dm' c = considered dm c).
Proof.
  intros H. destruct (mb_init KDMc [0; 1]%Z 2) as [dm|] eqn:MB; [|vm_compute in MB; discriminate].
  destruct (H KDMc [0; 1]%Z dm [0; 0]%Q 1%Q MB eq_refl) as (r & dm' & U & V).
  - intros i Hi. simpl in Hi. destruct i as [|[|i]]; try reflexivity. lia.
  - reflexivity.
  - vm_compute in MB. injection MB as <-. vm_compute in U. injection U as _ <-. specialize (V 1). vm_compute in V. discriminate.
Qed.

(** ** Reading out *)
Theorem C67_readout_refuted : forall K kd L order pauli phi0 phi0c phi1 b_ bp_ b,
  nth_error order b_ = Some b -> b <> 0 ->
  get_phi0 K (mb_si kd) L order pauli phi0 b_ bp_ = None /\ get_phi0 K (mb_si kd) L order pauli phi0 bp_ b_ = None /\
  get_phi0_c K (mb_si kd) L order phi0c b_ bp_ = None /\ get_phi1 K (mb_si kd) L order phi1 b_ bp_ = None /\
  get_phi1 K (mb_si kd) L order phi1 bp_ b_ = None.
Proof.
  intros K kd L order pauli phi0 phi0c phi1 b_ bp_ b Hb NZ.
  assert (LB : labelled (mb_si kd) order b_ = None).
  { unfold labelled. rewrite Hb. assert (G : get_state (mb_si kd) b = None).
    { destruct b; [congruence|]. destruct kd; unfold get_state; (replace (si_i (mb_si _)) with [0] by reflexivity); destruct b; reflexivity. }
    now rewrite G. }
  unfold get_phi0, get_phi0_c, get_phi1, with_two. rewrite LB. repeat split; auto; destruct (labelled (mb_si kd) order bp_) as [[? ?]|]; auto.
Qed.

(** ** Another approach *)
(** changing kerntype between a first-order approach and 2vN loses every state but the first *)
Theorem C67_kerntype_refuted : forall kd kd' Na dm, mb_init kd Na (length Na) = Some dm -> kd <> kd' ->
  forall c i, In i (considered (mb_switch kd kd' dm) c) -> i = 0.
Proof.
  intros kd kd' Na dm MB NE c i H.
  destruct kd, kd'; try congruence; unfold mb_switch in H; cbn [kind_eqb] in H;
    (match type of H with context [call_init ?k _ ?s] => set (d := snd (call_init k 0 s)) in H; assert (X : forall c, In i (nth c (dm_statesdm d) []) -> i = 0) end;
     [intros c0; vm_compute (dm_statesdm d); destruct c0 as [|[|[|c0]]]; simpl; tauto || (intros [<-|[]]; reflexivity) || (destruct c0; tauto)|apply (X c); exact H]).
Qed.
Theorem C67_kerntype_same : forall kd dm, mb_switch kd kd dm = dm.
Proof. intros [] dm; reflexivity. Qed.
Print Assumptions C67_selection.
Print Assumptions C67_use_all_refuted.
Print Assumptions C67_remove_states_refuted.
Print Assumptions C67_readout_refuted.
Print Assumptions C67_kerntype_refuted.

(** ** Example: two orbitals with a doubly occupied state, and numbers counted down from -1 *)
Example C67_case :
  extremes [0; 1; 1; 2]%Z 0 2 /\ extremes [-3; -2; -2; -1]%Z (-3) (-1) /\
  option_map dm_statesdm (mb_init KDM [0; 1; 1; 2]%Z 4) = Some [[0]; [1; 2]; [3]; []] /\
  option_map dm_statesdm (mb_init KDM [-3; -2; -2; -1]%Z 4) = Some [[0]; [1; 2]; [3]; []] /\
  option_map (fun dm => (get_ind_dm0 dm 1 1 1, get_ind_dm0 dm 1 2 1, get_ind_dm0 dm 2 1 1, get_ind_dm0 dm 3 3 2))
    (mb_init KDM [0; 1; 1; 2]%Z 4) = Some (Some 1%Z, Some 4%Z, Some 4%Z, Some 3%Z) /\
  (forall i, i < 4 -> Z.of_nat (nth i [0; 1; 1; 2] 0) = (nth i [0; 1; 1; 2] 0 - 0)%Z).
Proof.
  assert (G : forall q l, forallb (fun z => (fst l <=? z)%Z && (z <=? snd l)%Z) q = true -> forall z, In z q -> (fst l <= z <= snd l)%Z).
  { intros q l H z Hz. rewrite forallb_forall in H. specialize (H z Hz). lia. }
  split; [|split; [|split; [|split; [|split]]]].
  - split; [simpl; auto|split; [simpl; auto 6|]]. now apply (G _ (0, 2)%Z).
  - split; [simpl; auto|split; [simpl; auto 6|]]. now apply (G _ (-3, -1)%Z).
  - vm_compute. reflexivity.
  - vm_compute. reflexivity.
  - vm_compute. reflexivity.
  - intros i Hi. do 4 (destruct i as [|i]; [reflexivity|]). lia.
Qed.
