(** remove_coherences, qmeq/builder/various.py 240-282. *)
From Coq Require Import String List Arith Lia ZArith Bool Permutation Sorted QArith Qabs.
From Verif Require Import Base Bits Indexing IndexingProofs RemoveProofs Binom SsqProofs Qn
  PropIndexing DMIndex DMIndexProofs DMReach PropDMIndex Layout.
Import ListNotations.
Open Scope nat_scope.
Local Notation length := List.length.

(** ** Model *)
Section Model.
(** [abs(E[b]-E[bp]) > dE] *)
Variable far : nat -> nat -> bool.
Variable L : Lay.

(** lines 258-266 for one slot: nothing (-1 or excluded), or the entry (i, ind) of (ilst, indlst);
    None on the outside = KeyError *)
Definition scan_slot (i : nat) : option (option (nat * nat)) :=
  let m := nth i (ly_mapdm0 L) (-1)%Z in
  if (m =? -1)%Z then Some None else
  match dict_get Nat.eqb (Z.to_nat m) (ly_inddm0 L) with
  | None => None
  | Some (b, bp) => if far b bp then Some None else Some (Some (i, Z.to_nat m))
  end.
Fixpoint scan (is : list nat) : option (list (nat * nat)) :=
  match is with
  | [] => Some []
  | i :: r => match scan_slot i, scan r with
              | Some (Some e), Some es => Some (e :: es)
              | Some None, Some es => Some es
              | _, _ => None
              end
  end.

(** multiarray_sort(…, [1, 0]) (lines 30-48): by index, then by slot *)
Definition ent_le (x y : nat * nat) : bool :=
  (snd x <? snd y) || ((snd x =? snd y) && (fst x <=? fst y)).
Fixpoint ent_insert (x : nat * nat) (l : list (nat * nat)) : list (nat * nat) :=
  match l with
  | [] => [x]
  | y :: r => if ent_le x y then x :: l else y :: ent_insert x r
  end.
Fixpoint ent_sort (l : list (nat * nat)) : list (nat * nat) :=
  match l with [] => [] | x :: r => ent_insert x (ent_sort r) end.

(** lines 270-277 *)
Fixpoint relabel (l : list (nat * nat)) (ind count : nat) : list (nat * nat) * nat :=
  match l with
  | [] => ([], count)
  | (i, k) :: r =>
      if k =? ind then let '(r', c') := relabel r ind count in ((i, count) :: r', c')
      else let '(r', c') := relabel r k (count + 1) in ((i, count + 1) :: r', c')
  end.

Definition set_all (es : list (nat * Z)) (m : list Z) : list Z := fold_left (fun m e => set_nth (fst e) (snd e) m) es m.

(** The loop of lines 258-266 also writes -1 at the excluded slots; slots that held -1 keep it. *)
Definition remove_coherences : option Lay :=
  match scan (seq 0 (ly_ndm0_ L)) with
  | None => None
  | Some es =>
      let m1 := set_all (map (fun i => (i, (-1)%Z))
                  (filter (fun i => match scan_slot i with Some (Some _) => false | _ => true end) (seq 0 (ly_ndm0_ L))))
                  (ly_mapdm0 L) in
      let '(es', count) := relabel (ent_sort es) 0 0 in
      let m2 := set_all (map (fun e => (fst e, Z.of_nat (snd e))) es') m1 in
      Some (mkLay (ly_ncharge L) (ly_statesdm L) (ly_lenlst L) (ly_dictdm L) (ly_shiftlst0 L) (ly_shiftlst1 L)
              m2 (ly_booldm0 L) (ly_conjdm0 L) (ly_inddm0 L) (ly_ndm0_ L)
              (ly_npauli L) (count + 1) (2 * (count + 1) - ly_npauli L) (ly_ndm1 L))
  end.
End Model.

(** energies as rationals (every float is one) *)
Definition qfar (E : nat -> Q) (dE : Q) (b bp : nat) : bool :=
  match Qlt_le_dec dE (Qabs (E b - E bp)) with left _ => true | right _ => false end.

(** ** What holds before the first call *)
Record fresh_lay (L : Lay) : Prop := {
  fl_len : length (ly_mapdm0 L) = ly_ndm0_ L;
  fl_slot : forall b bp c, (0 <= c)%Z -> In b (states L c) -> In bp (states L c) -> slot_at L b bp c < ly_ndm0_ L;
  fl_inj : forall b bp c b' bp' c', (0 <= c)%Z -> (0 <= c')%Z -> In b (states L c) -> In bp (states L c) ->
     In b' (states L c') -> In bp' (states L c') -> slot_at L b bp c = slot_at L b' bp' c' -> b = b' /\ bp = bp' /\ c = c';
  fl_surj : forall i, i < ly_ndm0_ L -> exists b bp c, (0 <= c)%Z /\ In b (states L c) /\ In bp (states L c) /\
     slot_at L b bp c = i;
  fl_ind : forall b bp c, (0 <= c)%Z -> In b (states L c) -> In bp (states L c) -> ind0 L b bp c <> (-1)%Z ->
     (0 <= ind0 L b bp c < Z.of_nat (ly_ndm0 L))%Z /\
     (dict_get Nat.eqb (Z.to_nat (ind0 L b bp c)) (ly_inddm0 L) = Some (b, bp) \/
      dict_get Nat.eqb (Z.to_nat (ind0 L b bp c)) (ly_inddm0 L) = Some (bp, b))
}.

Theorem fresh_reach : forall n name si dm, 1 <= n -> ix_of name n <> IxSsq -> reach KDM n name si dm ->
  fresh_lay (lay_of dm).
Proof.
  intros n name si dm Hn Hix R.
  pose proof (C07_slots KDM n name si dm Hn R) as (S1 & S2 & S3 & S4).
  pose proof (reach_kind n name si dm Hn R) as (KD & NC).
  pose proof (layout_reach n name si dm Hn Hix R) as LO.
  assert (SZ : dm0_size dm = dm_ndm0_ dm) by exact S4.
  assert (EL : forall b bp k, In b (states (lay_of dm) (Z.of_nat k)) -> In bp (states (lay_of dm) (Z.of_nat k)) -> element dm b bp k).
  { intros. rewrite states_nat in *. split; auto. split; auto. rewrite KD. discriminate. }
  constructor.
  - simpl. unfold mapdm0. rewrite (writes_length _ (ev_slot dm) (fun e => Z.of_nat (e_cnt e))), repeat_length. auto.
  - intros b bp c Hc Hb Hbp. destruct (zc c Hc) as (k & ->). rewrite (slot_at_dm n name si dm Hn R). simpl.
    rewrite <- SZ. auto.
  - intros b bp c b' bp' c' Hc Hc' Hb Hbp Hb' Hbp'. destruct (zc c Hc) as (k & ->). destruct (zc c' Hc') as (k' & ->).
    rewrite !(slot_at_dm n name si dm Hn R). intros EQ.
    destruct (S2 b bp k b' bp' k') as (-> & -> & ->); auto.
  - intros i Hi. simpl in Hi. rewrite <- SZ in Hi. destruct (S3 i Hi) as (b & bp & c & (E1 & E2 & _) & EQ).
    exists b, bp, (Z.of_nat c). rewrite states_nat, (slot_at_dm n name si dm Hn R). split; [lia|auto].
  - intros b bp c Hc Hb Hbp NE. pose proof (C08_numbering_dm n name si dm Hn Hix R) as (N1 & N2 & N3 & N4 & N5 & _).
    assert (RG : (0 <= ind0 (lay_of dm) b bp c < Z.of_nat (ly_ndm0 (lay_of dm)))%Z).
    { pose proof (lo_le _ LO). destruct (Nat.eq_dec b bp) as [<-|Hne].
      - destruct (lo_diag _ LO b c Hc Hb) as (B & _). lia.
      - destruct (lo_off _ LO b bp c Hc Hb Hbp Hne) as (_ & B). destruct (B NE) as (B1 & _). lia. }
    split; auto. destruct (N5 (Z.to_nat (ind0 (lay_of dm) b bp c))) as (x & y & z & (E1 & E2 & _) & D & G & _).
    { simpl in RG. lia. }
    pose proof (ind0_dm n name si dm Hn R _ _ _ _ G) as G'. cbn [ly_inddm0 lay_of]. rewrite D.
    rewrite Z2Nat.id in G' by lia.
    destruct (lo_inj _ LO x y (Z.of_nat z) b bp c) as (<- & [[-> ->]|[-> ->]]); auto; try lia; rewrite ?states_nat; auto.
Qed.

(** ** Proofs *)
Section Proofs.
Variable far : nat -> nat -> bool.
Hypothesis far_sym : forall b bp, far b bp = far bp b.
Hypothesis far_diag : forall b, far b b = false.
Variable L : Lay.
Hypothesis LO : layout L.
Hypothesis FL : fresh_lay L.

Definition keep (k : nat) : bool :=
  match dict_get Nat.eqb k (ly_inddm0 L) with Some (b, bp) => negb (far b bp) | None => false end.
Definition rank (k : nat) : nat := length (filter keep (seq 0 k)).

Lemma rank_S : forall k, rank (S k) = rank k + (if keep k then 1 else 0).
Proof.
  intros. unfold rank. rewrite seq_S, filter_app, app_length. simpl. destruct (keep k); auto.
Qed.
Lemma rank_le : forall j k, j <= k -> rank j <= rank k.
Proof. intros j k H. induction H; auto. rewrite rank_S. lia. Qed.
Lemma rank_bound : forall k, rank k <= k.
Proof. induction k; [auto|]. rewrite rank_S. destruct (keep k); lia. Qed.
Lemma rank_lt : forall j k, j < k -> keep j = true -> rank j < rank k.
Proof. intros j k H K. pose proof (rank_le (S j) k H). rewrite rank_S, K in H0. lia. Qed.
Lemma rank_inj : forall j k, keep j = true -> keep k = true -> rank j = rank k -> j = k.
Proof.
  intros j k K1 K2 E. destruct (Nat.lt_trichotomy j k) as [H|[H|H]]; auto.
  - pose proof (rank_lt _ _ H K1). lia.
  - pose proof (rank_lt _ _ H K2). lia.
Qed.
Lemma rank_gap : forall j k, j < k -> keep j = true -> (forall i, j < i < k -> keep i = false) -> rank k = rank j + 1.
Proof.
  intros j k H K. induction H as [|k H IH]; intros G.
  - rewrite rank_S, K. auto.
  - rewrite rank_S. rewrite IH by (intros; apply G; lia). rewrite G by lia. lia.
Qed.
Lemma rank_surj : forall N r, r < rank N -> exists k, k < N /\ keep k = true /\ rank k = r.
Proof.
  induction N; intros r H; [unfold rank in H; simpl in H; lia|].
  rewrite rank_S in H. destruct (Nat.lt_ge_cases r (rank N)) as [H1|H1].
  - destruct (IHN r H1) as (k & ? & ? & ?). exists k. auto.
  - destruct (keep N) eqn:K; [|lia]. exists N. split; [lia|]. split; auto. lia.
Qed.
Lemma rank_all : forall k, (forall j, j < k -> keep j = true) -> rank k = k.
Proof. induction k; intros H; auto. rewrite rank_S, IHk by (intros; apply H; lia). rewrite H by lia. lia. Qed.

(** sorting *)
Lemma insert_perm : forall x l, Permutation (ent_insert x l) (x :: l).
Proof.
  induction l as [|y l IH]; simpl; auto. destruct (ent_le x y); auto.
  rewrite IH. apply perm_swap.
Qed.
Lemma sort_perm : forall l, Permutation (ent_sort l) l.
Proof. induction l; simpl; auto. rewrite insert_perm. now constructor. Qed.
Definition snd_le (x y : nat * nat) : Prop := snd x <= snd y.
Lemma insert_sorted : forall x l, StronglySorted snd_le l -> StronglySorted snd_le (ent_insert x l).
Proof.
  induction l as [|y l IH]; intros H; simpl; [constructor; auto; constructor|].
  inversion H as [|? ? H1 H2]; subst. destruct (ent_le x y) eqn:E.
  - constructor; auto. assert (snd_le x y).
    { unfold ent_le in E. unfold snd_le. apply orb_true_iff in E. destruct E as [E|E].
      - apply Nat.ltb_lt in E. lia.
      - apply andb_true_iff in E. destruct E as [E _]. apply Nat.eqb_eq in E. lia. }
    constructor; auto. eapply Forall_impl; [|exact H2]. unfold snd_le in *. intros; lia.
  - constructor; auto. assert (snd_le y x).
    { unfold ent_le in E. unfold snd_le. apply orb_false_iff in E. destruct E as [E _]. apply Nat.ltb_ge in E. lia. }
    apply Forall_forall. intros z Hz. apply (Permutation_in z (insert_perm x l)) in Hz. destruct Hz as [<-|Hz]; auto.
    rewrite Forall_forall in H2. auto.
Qed.
Lemma sort_sorted : forall l, StronglySorted snd_le (ent_sort l).
Proof. induction l; simpl; [constructor|]. now apply insert_sorted. Qed.

Lemma relabel_ok : forall N l ind count, StronglySorted snd_le l ->
  (forall i k, In (i, k) l -> ind <= k /\ k < N /\ keep k = true) ->
  (forall j, ind < j -> j < N -> keep j = true -> exists i, In (i, j) l) ->
  ind < N -> keep ind = true -> count = rank ind ->
  relabel l ind count = (map (fun e => (fst e, rank (snd e))) l, rank N - 1).
Proof.
  induction l as [|[i k] l IH]; intros ind count ST A B I K C.
  - simpl. f_equal. rewrite (rank_gap ind N I K); [lia|].
    intros j Hj. destruct (keep j) eqn:KJ; auto. destruct (B j) as (? & []); auto; lia.
  - inversion ST as [|? ? ST' FA]; subst. rewrite Forall_forall in FA. cbn [relabel].
    assert (A' : forall i' k', In (i', k') l -> k <= k' /\ k' < N /\ keep k' = true).
    { intros i' k' H. split; [apply (FA (i', k') H)|]. destruct (A i' k'); [right; auto|]. auto. }
    destruct (A i k) as (A1 & A2 & A3); [left; auto|].
    destruct (Nat.eqb_spec k ind) as [->|NE].
    + rewrite (IH ind (rank ind)); auto. intros j H1 H2 H3. destruct (B j H1 H2 H3) as (i' & [X|X]); [|eauto].
      injection X as _ <-. lia.
    + assert (R : rank k = rank ind + 1).
      { apply rank_gap; auto; [lia|]. intros j Hj. destruct (keep j) eqn:KJ; auto.
        destruct (B j) as (i' & [X|X]); auto; try lia.
        - injection X as _ <-. lia.
        - destruct (A' _ _ X). lia. }
      rewrite (IH k (rank ind + 1)); auto.
      * simpl. now rewrite R.
      * intros j H1 H2 H3. destruct (B j) as (i' & [X|X]); auto; try lia; [|eauto]. injection X as _ <-. lia.
Qed.

(** the scan *)
Lemma slot_keep : forall i, i < ly_ndm0_ L ->
  scan_slot far L i = Some (let m := nth i (ly_mapdm0 L) (-1)%Z in
     if (m =? -1)%Z then None else if keep (Z.to_nat m) then Some (i, Z.to_nat m) else None).
Proof.
  intros i Hi. unfold scan_slot. cbv zeta. destruct (Z.eqb_spec (nth i (ly_mapdm0 L) (-1)%Z) (-1)) as [E|NE]; auto.
  destruct (fl_surj L FL i Hi) as (b & bp & c & Hc & Hb & Hbp & ES).
  assert (EI : nth i (ly_mapdm0 L) (-1)%Z = ind0 L b bp c) by (unfold ind0; now rewrite ES).
  rewrite EI in *. destruct (fl_ind L FL b bp c Hc Hb Hbp NE) as (_ & [D|D]); unfold keep; rewrite D.
  - destruct (far b bp); auto.
  - destruct (far bp b); auto.
Qed.

Lemma scan_ok : forall is, (forall i, In i is -> i < ly_ndm0_ L) -> exists es, scan far L is = Some es /\
  forall i k, In (i, k) es <-> (In i is /\ nth i (ly_mapdm0 L) (-1)%Z = Z.of_nat k /\ keep k = true).
Proof.
  induction is as [|i is IH]; intros H.
  - exists []. split; auto. intros; simpl; tauto.
  - destruct IH as (es & E & X). { intros; apply H; right; auto. }
    simpl. rewrite E, slot_keep by (apply H; left; auto). cbv zeta.
    assert (RNG : nth i (ly_mapdm0 L) (-1)%Z <> (-1)%Z -> (0 <= nth i (ly_mapdm0 L) (-1))%Z).
    { intros NE. destruct (fl_surj L FL i) as (b & bp & c & Hc & Hb & Hbp & ES). { apply H; left; auto. }
      assert (EI : nth i (ly_mapdm0 L) (-1)%Z = ind0 L b bp c) by (unfold ind0; now rewrite ES).
      rewrite EI in *. destruct (fl_ind L FL b bp c Hc Hb Hbp NE); lia. }
    destruct (Z.eqb_spec (nth i (ly_mapdm0 L) (-1)%Z) (-1)) as [EM|NE].
    + exists es. split; auto. intros j k. rewrite X. split; [intros (A & B); split; auto; right; auto|].
      intros ([->|A] & B & C); [rewrite B in EM; lia|auto].
    + specialize (RNG NE). destruct (keep (Z.to_nat (nth i (ly_mapdm0 L) (-1)%Z))) eqn:KK.
      * eexists. split; [reflexivity|]. intros j k. simpl. rewrite X. split.
        { intros [A|(A & B)]; [injection A as <- <-; split; auto; split; auto; lia|auto]. }
        { intros ([->|A] & B & C); [left|auto]. f_equal. rewrite B. lia. }
      * exists es. split; auto. intros j k. rewrite X. split; [intros (A & B); split; auto; right; auto|].
        intros ([->|A] & B & C); [rewrite B, Nat2Z.id in KK; congruence|auto].
Qed.

(** writing *)
Lemma set_all_length : forall es m, length (set_all es m) = length m.
Proof.
  induction es as [|e es IH]; intros m; simpl; auto. unfold set_all in *. simpl. rewrite IH. apply set_nth_length.
Qed.
Lemma set_all_in : forall es m i v, In (i, v) es -> (forall v', In (i, v') es -> v' = v) -> i < length m ->
  nth i (set_all es m) (-1)%Z = v.
Proof.
  intros es. induction es as [|[j w] es IH] using rev_ind; intros m i v H U Hi; [destruct H|].
  unfold set_all. rewrite fold_left_app. simpl. fold (set_all es m). destruct (Nat.eq_dec j i) as [->|NE].
  - rewrite nth_set_same by (rewrite set_all_length; auto). apply U. apply in_or_app. right. left. auto.
  - rewrite nth_set_other by auto. apply IH; auto.
    + apply in_app_iff in H. destruct H as [H|[H|[]]]; auto. injection H as -> _. congruence.
    + intros v' H'. apply U. apply in_or_app. auto.
Qed.
Lemma set_all_out : forall es m i, (forall v, ~ In (i, v) es) -> nth i (set_all es m) (-1)%Z = nth i m (-1)%Z.
Proof.
  induction es as [|[j w] es IH]; intros m i H; simpl; auto. unfold set_all in *. simpl. rewrite IH.
  - apply nth_set_other. intros ->. apply (H w). left. auto.
  - intros v Hv. apply (H v). right. auto.
Qed.

Definition new_ind (m : Z) : Z :=
  if (m =? -1)%Z then (-1)%Z else if keep (Z.to_nat m) then Z.of_nat (rank (Z.to_nat m)) else (-1)%Z.

Lemma slot_lt : forall i, nth i (ly_mapdm0 L) (-1)%Z <> (-1)%Z -> i < ly_ndm0_ L.
Proof.
  intros i H. destruct (Nat.lt_ge_cases i (ly_ndm0_ L)); auto.
  exfalso. apply H. apply nth_overflow. rewrite (fl_len L FL). auto.
Qed.

Lemma index_pair : forall k, k < ly_ndm0 L -> exists b bp c, (0 <= c)%Z /\ In b (states L c) /\ In bp (states L c) /\
  ind0 L b bp c = Z.of_nat k /\ keep k = negb (far b bp) /\ (k < ly_npauli L -> b = bp).
Proof.
  intros k Hk. destruct (Nat.lt_ge_cases k (ly_npauli L)) as [H|H].
  - destruct (lo_surj L LO k H) as (b & c & Hc & Hb & E). exists b, b, c. repeat (split; auto).
    destruct (fl_ind L FL b b c Hc Hb Hb) as (_ & D); [lia|]. unfold keep. rewrite E, Nat2Z.id in D.
    destruct D as [D|D]; rewrite D; auto.
  - destruct (lo_surj2 L LO k (conj H Hk)) as (b & bp & c & Hc & Hb & Hbp & _ & E & _). exists b, bp, c. repeat (split; auto).
    + destruct (fl_ind L FL b bp c Hc Hb Hbp) as (_ & D); [lia|]. unfold keep. rewrite E, Nat2Z.id in D.
      destruct D as [D|D]; rewrite D; auto. now rewrite far_sym.
    + lia.
Qed.

Lemma keep_diag : forall k, k < ly_npauli L -> keep k = true.
Proof.
  intros k H. destruct (index_pair k) as (b & bp & c & _ & _ & _ & _ & E & D). { pose proof (lo_le L LO). lia. }
  rewrite E. rewrite (D H), far_diag. auto.
Qed.

Hypothesis some_state : 1 <= ly_npauli L.

Lemma rank_N : 1 <= rank (ly_ndm0 L).
Proof.
  pose proof (lo_le L LO). pose proof (rank_le (ly_npauli L) (ly_ndm0 L) H). rewrite (rank_all (ly_npauli L)) in H0; [lia|].
  exact keep_diag.
Qed.

Theorem remove_result : exists m2, remove_coherences far L =
   Some (mkLay (ly_ncharge L) (ly_statesdm L) (ly_lenlst L) (ly_dictdm L) (ly_shiftlst0 L) (ly_shiftlst1 L)
         m2 (ly_booldm0 L) (ly_conjdm0 L) (ly_inddm0 L) (ly_ndm0_ L)
         (ly_npauli L) (rank (ly_ndm0 L)) (2 * rank (ly_ndm0 L) - ly_npauli L) (ly_ndm1 L)) /\
   forall i, nth i m2 (-1)%Z = new_ind (nth i (ly_mapdm0 L) (-1)%Z).
Proof.
  destruct (scan_ok (seq 0 (ly_ndm0_ L))) as (es & E & X). { intros i Hi. apply in_seq in Hi. lia. }
  unfold remove_coherences. rewrite E.
  assert (RL : relabel (ent_sort es) 0 0 = (map (fun e => (fst e, rank (snd e))) (ent_sort es), rank (ly_ndm0 L) - 1)).
  { pose proof (lo_le L LO). apply relabel_ok.
    - apply sort_sorted.
    - intros i k H'. apply (Permutation_in _ (sort_perm es)) in H'. apply X in H'. destruct H' as (A & B & C).
      split; [lia|]. split; auto. apply in_seq in A. destruct (fl_surj L FL i) as (b & bp & c & Hc & Hb & Hbp & ES); [lia|].
      assert (EI : nth i (ly_mapdm0 L) (-1)%Z = ind0 L b bp c) by (unfold ind0; now rewrite ES).
      destruct (fl_ind L FL b bp c Hc Hb Hbp); lia.
    - intros j _ H2 H3. destruct (index_pair j H2) as (b & bp & c & Hc & Hb & Hbp & EI & _).
      exists (slot_at L b bp c). apply (Permutation_in _ (Permutation_sym (sort_perm es))). apply X.
      split; [|split; auto]. apply in_seq. pose proof (fl_slot L FL b bp c Hc Hb Hbp). lia.
    - lia.
    - apply keep_diag. lia.
    - reflexivity. }
  rewrite RL. cbv zeta. replace (rank (ly_ndm0 L) - 1 + 1) with (rank (ly_ndm0 L)) by (pose proof rank_N; lia).
  eexists. split; [reflexivity|]. intros i. rewrite map_map. cbn [fst snd].
  assert (IN : forall v, In (i, v) (map (fun x => (fst x, Z.of_nat (rank (snd x)))) (ent_sort es)) <->
     exists k, v = Z.of_nat (rank k) /\ i < ly_ndm0_ L /\ nth i (ly_mapdm0 L) (-1)%Z = Z.of_nat k /\ keep k = true).
  { intros v. split.
    - intros H. apply in_map_iff in H. destruct H as ((j & k) & H1 & H2). injection H1 as <- <-. simpl.
      apply (Permutation_in _ (sort_perm es)) in H2. apply X in H2. destruct H2 as (A & B & C). apply in_seq in A.
      exists k. repeat split; auto. lia.
    - intros (k & -> & A & B & C). apply in_map_iff. exists (i, k). split; auto.
      apply (Permutation_in _ (Permutation_sym (sort_perm es))). apply X. repeat split; auto. apply in_seq. lia. }
  unfold new_ind. destruct (Z.eqb_spec (nth i (ly_mapdm0 L) (-1)%Z) (-1)) as [EM|NE].
  - rewrite set_all_out.
    + destruct (Nat.lt_ge_cases i (ly_ndm0_ L)) as [Hi|Hi].
      * apply set_all_in; [|intros v' H'; apply in_map_iff in H'; destruct H' as (? & H' & _); now injection H' as _ <-|now rewrite (fl_len L FL)].
        apply in_map_iff. exists i. split; auto. apply filter_In. split; [apply in_seq; lia|].
        rewrite slot_keep by auto. cbv zeta. now rewrite EM.
      * apply nth_overflow. rewrite set_all_length, (fl_len L FL). auto.
    + intros v Hv. apply IN in Hv. destruct Hv as (k & _ & _ & B & _). lia.
  - pose proof (slot_lt i NE) as Hi. destruct (keep (Z.to_nat (nth i (ly_mapdm0 L) (-1)%Z))) eqn:KK.
    + assert (EZ : exists k, nth i (ly_mapdm0 L) (-1)%Z = Z.of_nat k).
      { destruct (fl_surj L FL i) as (b & bp & c & Hc & Hb & Hbp & ES); [lia|].
        assert (EI : nth i (ly_mapdm0 L) (-1)%Z = ind0 L b bp c) by (unfold ind0; now rewrite ES).
        rewrite EI in *. destruct (fl_ind L FL b bp c Hc Hb Hbp NE). exists (Z.to_nat (ind0 L b bp c)). lia. }
      destruct EZ as (k & EZ). rewrite EZ, Nat2Z.id in *. apply set_all_in.
      * apply IN. exists k. auto.
      * intros v' H'. apply IN in H'. destruct H' as (k' & -> & _ & B & _). f_equal. f_equal. lia.
      * rewrite set_all_length, (fl_len L FL). auto.
    + rewrite set_all_out.
      * apply set_all_in; [|intros v' H'; apply in_map_iff in H'; destruct H' as (? & H' & _); now injection H' as _ <-|now rewrite (fl_len L FL)].
        apply in_map_iff. exists i. split; auto. apply filter_In. split; [apply in_seq; lia|].
        rewrite slot_keep by auto. cbv zeta. rewrite KK. destruct (nth i (ly_mapdm0 L) (-1) =? -1)%Z; auto.
      * intros v Hv. apply IN in Hv. destruct Hv as (k & _ & _ & B & C). rewrite B, Nat2Z.id in KK. congruence.
Qed.

Variable L' : Lay.
Hypothesis RM : remove_coherences far L = Some L'.

Lemma rm_fields : ly_ncharge L' = ly_ncharge L /\ ly_npauli L' = ly_npauli L /\ ly_ndm0 L' = rank (ly_ndm0 L) /\
  ly_ndm0r L' = 2 * rank (ly_ndm0 L) - ly_npauli L /\ ly_ndm1 L' = ly_ndm1 L /\
  (forall c, states L' c = states L c) /\ (forall b bp c, uniq L' b bp c = uniq L b bp c) /\
  (forall b bp c, cnj L' b bp c = cnj L b bp c) /\ (forall c b q, ind1 L' c b q = ind1 L c b q) /\
  (forall b bp c, ind0 L' b bp c = new_ind (ind0 L b bp c)).
Proof.
  destruct remove_result as (m2 & E & N). rewrite E in RM. injection RM as <-.
  repeat (split; [reflexivity|]). intros b bp c. unfold ind0. simpl. rewrite N. reflexivity.
Qed.

Lemma keep_pair : forall b bp c, (0 <= c)%Z -> In b (states L c) -> In bp (states L c) -> ind0 L b bp c <> (-1)%Z ->
  keep (Z.to_nat (ind0 L b bp c)) = negb (far b bp).
Proof.
  intros b bp c Hc Hb Hbp NE. destruct (fl_ind L FL b bp c Hc Hb Hbp NE) as (_ & [D|D]); unfold keep; rewrite D; auto.
  now rewrite far_sym.
Qed.

Lemma new_ind_no : forall m, (m = -1 \/ 0 <= m)%Z -> (new_ind m = (-1)%Z <-> m = (-1)%Z \/ keep (Z.to_nat m) = false).
Proof.
  intros m Hm. unfold new_ind. destruct (Z.eqb_spec m (-1)) as [->|NE]; [tauto|].
  destruct (keep (Z.to_nat m)); split; auto; try lia; intros [H|H]; (tauto || discriminate).
Qed.
Lemma ind0_dom : forall b bp c, (0 <= c)%Z -> In b (states L c) -> In bp (states L c) ->
  ind0 L b bp c = (-1)%Z \/ (0 <= ind0 L b bp c < Z.of_nat (ly_ndm0 L))%Z.
Proof.
  intros b bp c Hc Hb Hbp. destruct (Z.eq_dec (ind0 L b bp c) (-1)); auto. right. now apply (fl_ind L FL).
Qed.

(** which elements remain *)
Theorem removed_exactly : forall b bp c, (0 <= c)%Z -> In b (states L' c) -> In bp (states L' c) ->
  (ind0 L' b bp c = (-1)%Z <-> ind0 L b bp c = (-1)%Z \/ far b bp = true).
Proof.
  intros b bp c Hc. destruct rm_fields as (_ & _ & _ & _ & _ & ST & _ & _ & _ & I). rewrite ST, I. intros Hb Hbp.
  pose proof (ind0_dom b bp c Hc Hb Hbp) as D. rewrite new_ind_no by lia.
  destruct (Z.eq_dec (ind0 L b bp c) (-1)) as [E|NE]; [tauto|]. rewrite keep_pair by auto.
  destruct (far b bp); simpl; intuition congruence.
Qed.

Theorem layout_removed : layout L'.
Proof.
  destruct rm_fields as (F1 & F2 & F3 & F4 & F5 & ST & U & CJ & I1 & I0).
  assert (PL : ly_npauli L = rank (ly_npauli L)) by (symmetry; apply rank_all; exact keep_diag).
  pose proof (lo_le L LO) as LE. pose proof (rank_le _ _ LE) as RLE.
  assert (NZ : forall b bp c, (0 <= c)%Z -> In b (states L c) -> In bp (states L c) -> ind0 L' b bp c <> (-1)%Z ->
     exists k, ind0 L b bp c = Z.of_nat k /\ k < ly_ndm0 L /\ keep k = true /\ ind0 L' b bp c = Z.of_nat (rank k)).
  { intros b bp c Hc Hb Hbp NE. rewrite I0 in *. pose proof (ind0_dom b bp c Hc Hb Hbp) as D.
    unfold new_ind in *. destruct (Z.eqb_spec (ind0 L b bp c) (-1)); [congruence|].
    destruct (keep (Z.to_nat (ind0 L b bp c))) eqn:K; [|congruence].
    exists (Z.to_nat (ind0 L b bp c)). repeat split; auto; lia. }
  constructor.
  - rewrite ST. apply (lo_below L LO).
  - rewrite ST, F1. apply (lo_above L LO).
  - intros c Hc. rewrite ST. now apply (lo_nodup L LO).
  - intros c c' b. rewrite !ST. apply (lo_same L LO).
  - intros c b Hc. rewrite ST, F1. now apply (lo_range L LO).
  - rewrite F2, F3. lia.
  - rewrite F4, F2, F3. lia.
  - intros b c Hc. rewrite ST, U, CJ. intros Hb. destruct (lo_diag L LO b c Hc Hb) as (B & B2).
    rewrite F2. split; auto. rewrite I0. unfold new_ind. destruct (Z.eqb_spec (ind0 L b b c) (-1)); [lia|].
    rewrite keep_diag by lia. rewrite rank_all by (intros; apply keep_diag; lia). lia.
  - intros b bp c Hc. rewrite !ST, !U, !CJ. intros Hb Hbp Hne. destruct (lo_off L LO b bp c Hc Hb Hbp Hne) as (B & B2).
    split; [now rewrite !I0, B|]. intros NE. destruct (NZ _ _ _ Hc Hb Hbp NE) as (k & E & Hk & K & E').
    destruct B2 as (B3 & B4); [lia|]. split; auto. rewrite E', F2, F3. rewrite PL.
    split.
    + apply Nat2Z.inj_le. apply rank_le. lia.
    + apply Nat2Z.inj_lt. apply rank_lt; auto.
  - intros b bp c b' bp' c' Hc Hc'. rewrite !ST. intros Hb Hbp Hb' Hbp' EQ NE.
    destruct (NZ _ _ _ Hc Hb Hbp NE) as (k & E & Hk & K & E').
    rewrite EQ in NE. destruct (NZ _ _ _ Hc' Hb' Hbp' NE) as (k' & E2 & Hk2 & K2 & E2').
    assert (k = k') by (apply rank_inj; auto; lia). subst k'.
    apply (lo_inj L LO); auto; lia.
  - intros k Hk. rewrite F2 in Hk. destruct (lo_surj L LO k Hk) as (b & c & Hc & Hb & E). exists b, c. rewrite ST, I0, E.
    split; auto. split; auto. unfold new_ind. destruct (Z.eqb_spec (Z.of_nat k) (-1)); [lia|]. rewrite Nat2Z.id.
    rewrite keep_diag by auto. f_equal. apply rank_all. intros; apply keep_diag; lia.
  - intros k Hk. rewrite F2, F3 in Hk. destruct (rank_surj (ly_ndm0 L) k) as (j & Hj & K & RJ); [lia|].
    assert (ly_npauli L <= j).
    { destruct (Nat.lt_ge_cases j (ly_npauli L)); auto.
      assert (rank j = j) by (apply rank_all; intros; apply keep_diag; lia). lia. }
    destruct (lo_surj2 L LO j) as (b & bp & c & Hc & Hb & Hbp & Hne & E & UQ); auto.
    exists b, bp, c. rewrite !ST, U, I0, E. repeat (split; auto). unfold new_ind.
    destruct (Z.eqb_spec (Z.of_nat j) (-1)); [lia|]. rewrite Nat2Z.id, K. now rewrite RJ.
  - intros b bp c Hc. rewrite !ST, U. intros Hb Hbp Hne NE. destruct (NZ _ _ _ Hc Hb Hbp NE) as (k & E & _).
    apply (lo_order L LO); auto. lia.
  - intros c b q. rewrite !ST, I1, F5. apply (lo_ind1 L LO).
  - intros c b q c' b' q'. rewrite !ST, !I1. apply (lo_ind1_inj L LO).
Qed.
End Proofs.

Lemma qfar_sym : forall E dE b bp, qfar E dE b bp = qfar E dE bp b.
Proof.
  intros. unfold qfar. assert (X : Qabs (E b - E bp) == Qabs (E bp - E b)).
  { rewrite <- (Qabs_opp (E bp - E b)). apply Qabs_wd. ring. }
  destruct (Qlt_le_dec dE (Qabs (E b - E bp))) as [H|H], (Qlt_le_dec dE (Qabs (E bp - E b))) as [H'|H']; auto.
  - rewrite X in H. apply Qlt_not_le in H. contradiction.
  - rewrite <- X in H'. apply Qlt_not_le in H'. contradiction.
Qed.
Lemma qfar_diag : forall E dE b, (0 <= dE)%Q -> qfar E dE b b = false.
Proof.
  intros. unfold qfar. destruct (Qlt_le_dec dE (Qabs (E b - E b))) as [G|G]; auto.
  assert (X : Qabs (E b - E b) == 0) by (rewrite (Qabs_wd (E b - E b) 0) by ring; reflexivity).
  rewrite X in G. apply Qlt_not_le in G. contradiction.
Qed.
Lemma qfar_spec : forall E dE b bp, qfar E dE b bp = true <-> (dE < Qabs (E b - E bp))%Q.
Proof.
  intros. unfold qfar. destruct (Qlt_le_dec dE (Qabs (E b - E bp))) as [G|G]; [tauto|].
  split; [discriminate|]. intros H. apply Qle_not_lt in G. contradiction.
Qed.
