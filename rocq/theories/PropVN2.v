(** Property C42: the 2vN kernel conserves probability and charge. *)
From Coq Require Import String List Arith Lia ZArith Bool Permutation Ring QArith.
From Verif Require Import Base Bits Indexing IndexingProofs RemoveProofs Binom SsqProofs Qn
  PropIndexing DMIndex DMIndexProofs DMReach PropDMIndex CRing Layout Coherences Kernel KernelProofs
  PauliProofs CohProofs CohKernels CohCurrents PropKernel MatrixFree PropSolve Rates VN2K.
From Verif Require PropLeads.
Import ListNotations.
Open Scope nat_scope.
Local Notation length := List.length.

(** What the proofs use of a StateIndexingDMc object: every ordered pair of considered states of one charge has its own
    number 0..ndm0-1. *)
Record clayout (L : Lay) : Prop := {
  cl_below : states L (-1) = [];
  cl_above : states L (Z.of_nat (ly_ncharge L)) = [];
  cl_nodup : forall c, (0 <= c)%Z -> NoDup (states L c);
  cl_idx : forall b bp c, (0 <= c)%Z -> In b (states L c) -> In bp (states L c) ->
     (0 <= ind0 L b bp c < Z.of_nat (ly_ndm0 L))%Z;
  cl_inj : forall b bp c b' bp' c', (0 <= c)%Z -> (0 <= c')%Z ->
     In b (states L c) -> In bp (states L c) -> In b' (states L c') -> In bp' (states L c') ->
     ind0 L b bp c = ind0 L b' bp' c' -> c = c' /\ b = b' /\ bp = bp';
  cl_surj : forall k, k < ly_ndm0 L -> exists b bp c, (0 <= c < Z.of_nat (ly_ncharge L))%Z /\
     In b (states L c) /\ In bp (states L c) /\ ind0 L b bp c = Z.of_nat k /\ (k < ly_npauli L <-> b = bp) }.

(** ** Objects of the code *)
Lemma ind0_dmc : forall n name si dm b bp c k, 1 <= n -> reach KDMc n name si dm ->
  get_ind_dm0 dm b bp c = Some k -> ind0 (lay_of dm) b bp (Z.of_nat c) = k.
Proof.
  intros n name si dm b bp c k Hn R G. unfold ind0. apply nth_of_error. unfold get_ind_dm0 in G.
  assert (slot_at (lay_of dm) b bp (Z.of_nat c) = dm0_slot dm b bp c) as ->; auto.
  unfold slot_at, dm0_slot.
  assert (KD : dm_kind dm = KDMc).
  { apply reach_reached in R; auto. destruct (rc_make _ _ _ _ _ R) as (qn & qi & d0 & lst & E & _).
    pose proof (dm_fields KDMc (ix_of name n) qn qi (n + 1) d0 (lst ++ [[]])) as F. rewrite <- E in F. tauto. }
  rewrite KD. simpl. now rewrite Nat2Z.id.
Qed.

Theorem clayout_reach : forall n name si dm, 1 <= n -> (ix_of name n = IxLin \/ ix_of name n = IxCharge) ->
  reach KDMc n name si dm -> clayout (lay_of dm).
Proof.
  intros n name si dm Hn Hix R.
  assert (Hns : ix_of name n <> IxSsq) by (destruct Hix; congruence).
  pose proof (C11_outer_sectors KDMc n name si dm Hn R) as (O1 & O2 & O3).
  destruct (C08_numbering_dmc n name si dm Hn Hns R) as (N1 & N2 & _ & N4 & N5 & _).
  assert (FA : si_indexing si = ix_of name n /\ dm_kind dm = KDMc /\ dm_ncharge dm = n + 1 /\
     forall c b, In b (considered dm c) -> c < n + 1).
  { pose proof R as R'. apply reach_reached in R'; auto. destruct (rc_make _ _ _ _ _ R') as (qn & qi & d0 & lst & E & LE & SEL & SO & HQ).
    pose proof (dm_fields KDMc (ix_of name n) qn qi (n + 1) d0 (lst ++ [[]])) as F. rewrite <- E in F.
    destruct F as (F1 & F2 & F3 & _). split; [apply (g_ix _ _ _ (rc_good _ _ _ _ _ R'))|]. split; auto. split; auto.
    intros c b. unfold considered. rewrite F3. rewrite <- LE in SO. intros A. destruct (so_in _ _ _ _ _ SO A). lia. }
  destruct FA as (IX & KD & NC & RG).
  assert (CO : forall b bp, coherent si b bp) by (intros b bp H; exfalso; rewrite IX in H; destruct Hix; congruence).
  pose proof (fun b bp c k => ind0_dmc n name si dm b bp c k Hn R) as I0.
  assert (NUM : forall b bp c, In b (considered dm c) -> In bp (considered dm c) -> exists k, k < dm_ndm0 dm /\
     get_ind_dm0 dm b bp c = Some (Z.of_nat k)).
  { intros b bp c Hb Hbp. destruct (Nat.eq_dec b bp) as [<-|Hne].
    - destruct (N1 b c Hb) as (k & A & B & _). exists k. split; auto.
      pose proof (N5) as X. assert (dm_npauli dm <= dm_ndm0 dm); [|lia].
      pose proof R as R'. apply reach_reached in R'; auto. destruct (rc_make _ _ _ _ _ R') as (qn & qi & d0 & lst & E & LE & SEL & SO & HQ).
      rewrite <- LE in SO. rewrite E. rewrite dm_npauli_eq by auto. rewrite dm_ndm0_eq by auto. lia.
    - destruct (N2 b bp c Hb Hbp Hne (CO b bp)) as (k & A & B & _). exists k. split; auto. lia. }
  constructor.
  - unfold states. simpl. now rewrite O1.
  - unfold states. simpl. rewrite NC. replace (Z.of_nat (n + 1)) with (Z.of_nat n + 1)%Z by lia. now rewrite O2.
  - intros c Hc. destruct (zc c Hc) as (k & ->). rewrite states_nat.
    pose proof R as R'. apply reach_reached in R'; auto. destruct (rc_make _ _ _ _ _ R') as (qn & qi & d0 & lst & E & LE & SEL & SO & HQ).
    pose proof (dm_fields KDMc (ix_of name n) qn qi (n + 1) d0 (lst ++ [[]])) as F. rewrite <- E in F. destruct F as (F1 & F2 & F3 & _).
    unfold considered. rewrite F3. rewrite <- LE in SO. eapply so_block_nodup; eauto.
  - intros b bp c Hc Hb Hbp. destruct (zc c Hc) as (q & ->). rewrite states_nat in Hb, Hbp.
    destruct (NUM b bp q Hb Hbp) as (k & A & B). rewrite (I0 _ _ _ _ B). simpl. lia.
  - intros b bp c b' bp' c' Hc Hc' Hb Hbp Hb' Hbp' EQ. destruct (zc c Hc) as (q & ->). destruct (zc c' Hc') as (q' & ->).
    rewrite states_nat in Hb, Hbp, Hb', Hbp'.
    destruct (NUM b bp q Hb Hbp) as (k & A & B). destruct (NUM b' bp' q' Hb' Hbp') as (k' & A' & B').
    rewrite (I0 _ _ _ _ B), (I0 _ _ _ _ B') in EQ. apply Nat2Z.inj in EQ. subst k'.
    destruct (N4 b bp q b' bp' q' (Z.of_nat k)) as (X & Y & W); auto.
    all: try (unfold element; repeat split; auto; rewrite KD; discriminate); try lia; subst; auto.
  - intros k Hk. destruct (N5 k Hk) as (b & bp & c & (H1 & H2 & _) & _ & G & _ & PB).
    exists b, bp, (Z.of_nat c). rewrite states_nat. split; [|split; auto].
    pose proof (RG c b H1). simpl. rewrite NC. lia.
Qed.

(** ** The rows of the kernel *)
Section Rows.
Variable K : CRing.
Local Notation C := (Cx K).
Local Open Scope rng_scope.
Add Ring KrV : (rth K).
Add Ring CrV : (rth (Cx K)).

(** one block of operations: an assignment in the diagonal, then additions to the row *)
Definition block_ops (x : Z * C * list (Z -> C)) : list (kop K) :=
  let '(i, v, rows) := x in KSet K i i v :: map (KAdd K i) rows.
Lemma adds_row : forall rows i m k j, fold_left (kstep K) (map (KAdd K i) rows) m (k, j) =
  if Z.eq_dec k i then m (k, j) + rsum (fun r => r j) rows else m (k, j).
Proof.
  induction rows as [|r rows IH]; intros i m k j; cbn [map fold_left rsum].
  - destruct (Z.eq_dec k i); [ring|auto].
  - rewrite IH. unfold kstep. cbn [fst snd]. destruct (Z.eq_dec k i); [ring|reflexivity].
Qed.
Lemma block_row : forall i v rows m k j, fold_left (kstep K) (block_ops (i, v, rows)) m (k, j) =
  if Z.eq_dec k i then (if Z.eq_dec j i then v else m (k, j)) + rsum (fun r => r j) rows else m (k, j).
Proof.
  intros i v rows m k j. unfold block_ops. cbn [fold_left]. rewrite adds_row. unfold kstep. destruct (Z.eq_dec k i) as [->|N].
  - destruct (eqZZ (i, j) (i, i)) as [E|E]; destruct (Z.eq_dec j i); congruence.
  - destruct (eqZZ (k, j) (i, i)); congruence.
Qed.
Definition bid (x : Z * C * list (Z -> C)) : Z := fst (fst x).
Lemma blocks_other : forall bs m k j, ~ In k (map bid bs) -> fold_left (kstep K) (flat_map block_ops bs) m (k, j) = m (k, j).
Proof.
  induction bs as [|[[i v] rows] bs IH]; intros m k j H; auto. cbn [flat_map]. rewrite fold_left_app.
  cbn [map bid fst] in H. rewrite IH by (intros X; apply H; now right). rewrite block_row.
  destruct (Z.eq_dec k i); auto. exfalso. apply H. left. auto.
Qed.
Lemma blocks_row : forall bs i v rows j, NoDup (map bid bs) -> In (i, v, rows) bs ->
  fold_left (kstep K) (flat_map block_ops bs) zeros (i, j) = (if Z.eq_dec j i then v else 0) + rsum (fun r => r j) rows.
Proof.
  intros bs i v rows j ND H. apply in_split in H. destruct H as (l1 & l2 & ->).
  rewrite map_app in ND. cbn [map bid fst] in ND. apply NoDup_remove_2 in ND.
  rewrite flat_map_app. cbn [flat_map]. rewrite !fold_left_app.
  rewrite blocks_other by (intros X; apply ND; apply in_or_app; now right).
  rewrite block_row. destruct (Z.eq_dec i i); [|congruence].
  rewrite blocks_other by (intros X; apply ND; apply in_or_app; now left). reflexivity.
Qed.

Variables (L : Lay) (nl : nat) (E : nat -> K) (T : nat -> nat -> nat -> C) (P : nat -> nat -> Z -> C).
Hypothesis CL : clayout L.
Local Notation n0 := (ly_ndm0 L).
Local Notation kern := (vn2_kern K L nl E T P).
Local Notation Pc := (Pc K L P).

Lemma at0_ind : forall b bp c, (0 <= c)%Z -> In b (states L c) -> In bp (states L c) -> at0 L b bp c = ind0 L b bp c.
Proof.
  intros b bp c Hc Hb Hbp. unfold at0, wrap. pose proof (cl_idx L CL b bp c Hc Hb Hbp).
  destruct (Z.ltb_spec (ind0 L b bp c) 0); lia.
Qed.

Definition row_terms (c : Z) (b bp : nat) : list (Z -> C) :=
  flat_map (fun a => flat_map (fun l =>
      [(fun j => T l b a * Pc l (ind1 L bp a (c - 1)) j);
       (fun j => - (P l (ind1 L b a (c - 1)) j * T l a bp))]) (leads nl)) (states L (c - 1)) ++
  flat_map (fun d => flat_map (fun l =>
      [(fun j => T l b d * P l (ind1 L d bp c) j);
       (fun j => - (Pc l (ind1 L d b c) j * T l d bp))]) (leads nl)) (states L (c + 1)).

Lemma map_flat_map : forall A B D (g : B -> D) (f : A -> list B) l, map g (flat_map f l) = flat_map (fun x => map g (f x)) l.
Proof. induction l as [|x l IH]; auto. cbn [flat_map]. now rewrite map_app, IH. Qed.

Lemma ops_block : forall c b bp, kern_ops K L nl E T P c b bp = block_ops (at0 L b bp c, ofR (E b - E bp), row_terms c b bp).
Proof.
  intros. unfold kern_ops, block_ops, row_terms. f_equal. rewrite map_app, !map_flat_map. f_equal;
  apply flat_map_ext; intros; rewrite map_flat_map; reflexivity.
Qed.

Definition pairs : list (Z * (nat * nat)) :=
  flat_map (fun c => map (fun p => (c, p)) (list_prod (states L c) (states L c))) (charges L).
Lemma pairs_in : forall c b bp, In (c, (b, bp)) pairs <->
  (0 <= c < Z.of_nat (ly_ncharge L))%Z /\ In b (states L c) /\ In bp (states L c).
Proof.
  intros c b bp. unfold pairs. rewrite in_flat_map. split.
  - intros (c' & Hc & H). apply in_map_iff in H. destruct H as ([x y] & EQ & H). injection EQ as -> -> ->.
    apply charges_in in Hc. apply in_prod_iff in H. tauto.
  - intros (Hc & Hb & Hbp). exists c. split; [now apply charges_in|]. apply in_map_iff. exists (b, bp).
    split; auto. now apply in_prod_iff.
Qed.
Lemma pairs_nodup : NoDup pairs.
Proof.
  unfold pairs. apply NoDup_flat_map.
  - apply charges_nodup.
  - intros c Hc. apply charges_in in Hc. apply FinFun.Injective_map_NoDup; [intros x y; congruence|].
    apply PropLeads.list_prod_nodup; apply (cl_nodup L CL); lia.
  - intros c c' x _ _ H1 H2. apply in_map_iff in H1, H2. destruct H1 as (y & <- & _). destruct H2 as (z & X & _). congruence.
Qed.

(** every row of the kernel: the energy difference in the diagonal and the listed terms *)
Lemma kern_fold : kern = fold_left (kstep K) (flat_map block_ops (map (fun x =>
   (at0 L (fst (snd x)) (snd (snd x)) (fst x), ofR (E (fst (snd x)) - E (snd (snd x))),
     row_terms (fst x) (fst (snd x)) (snd (snd x)))) pairs)) zeros.
Proof.
  unfold vn2_kern. f_equal. unfold pairs. rewrite map_flat_map. induction (charges L) as [|c cs IH]; auto.
  cbn [flat_map]. rewrite flat_map_app, <- IH. f_equal. induction (list_prod (states L c) (states L c)) as [|p ps IHp]; auto.
  cbn [flat_map map]. rewrite IHp. rewrite ops_block. reflexivity.
Qed.
Lemma kern_row : forall c b bp j, (0 <= c < Z.of_nat (ly_ncharge L))%Z -> In b (states L c) -> In bp (states L c) ->
  kern (ind0 L b bp c, j) = (if Z.eq_dec j (ind0 L b bp c) then ofR (E b - E bp) else 0) +
    rsum (fun r => r j) (row_terms c b bp).
Proof.
  intros c b bp j Hc Hb Hbp. rewrite kern_fold. rewrite <- (at0_ind b bp c) by (auto; lia). apply blocks_row.
  - rewrite map_map. unfold bid. cbn [fst]. apply map_nodup_in; [|apply pairs_nodup].
    intros [c1 [b1 bp1]] [c2 [b2 bp2]] H1 H2 EQ. cbn [fst snd] in EQ. apply pairs_in in H1, H2.
    destruct H1 as (A1 & A2 & A3). destruct H2 as (B1 & B2 & B3).
    rewrite !at0_ind in EQ by (auto; lia).
    destruct (cl_inj L CL b1 bp1 c1 b2 bp2 c2) as (-> & -> & ->); auto; lia.
  - apply in_map_iff. exists (c, (b, bp)). split; [reflexivity|]. now apply pairs_in.
Qed.

(** what flows from state b of charge q to state d of charge q+1 through lead l *)
Definition flow (q : Z) (j : Z) : C := rsum (fun d => rsum (fun b => rsum (fun l =>
  T l d b * Pc l (ind1 L d b q) j - P l (ind1 L d b q) j * T l b d) (leads nl)) (states L q)) (states L (q + 1)).
Lemma kern_diag : forall c b j, (0 <= c < Z.of_nat (ly_ncharge L))%Z -> In b (states L c) ->
  kern (ind0 L b b c, j) =
    rsum (fun a => rsum (fun l => T l b a * Pc l (ind1 L b a (c - 1)) j - P l (ind1 L b a (c - 1)) j * T l a b) (leads nl))
      (states L (c - 1)) -
    rsum (fun d => rsum (fun l => T l d b * Pc l (ind1 L d b c) j - P l (ind1 L d b c) j * T l b d) (leads nl))
      (states L (c + 1)).
Proof.
  intros c b j Hc Hb. rewrite kern_row by auto.
  assert ((if Z.eq_dec j (ind0 L b b c) then ofR (E b - E b) else 0) = (0 : C)) as ->.
  { destruct (Z.eq_dec _ _); auto. replace (E b - E b) with (0 : K) by ring. reflexivity. }
  unfold row_terms. rewrite rsum_app, !rsum_flat_map.
  match goal with |- 0 + (?x + ?y) = ?z - ?w => assert (x = z) as ->; [|assert (y = - w) as ->; [|ring]] end.
  - apply rsum_ext. intros a _. rewrite rsum_flat_map. apply rsum_ext. intros l _. cbn [rsum]. ring.
  - rewrite <- rsum_opp. apply rsum_ext. intros d _. rewrite rsum_flat_map, <- rsum_opp. apply rsum_ext. intros l _. cbn [rsum]. ring.
Qed.
Lemma charge_diag : forall c j, (0 <= c < Z.of_nat (ly_ncharge L))%Z ->
  rsum (fun b => kern (ind0 L b b c, j)) (states L c) = flow (c - 1) j - flow c j.
Proof.
  intros c j Hc. rewrite (rsum_ext _ _ _ _ _ (fun b Hb => kern_diag c b j Hc Hb)). rewrite rsum_minus. f_equal.
  - unfold flow. replace (c - 1 + 1)%Z with c by lia. reflexivity.
  - unfold flow. apply rsum_swap.
Qed.
(** the kernel weighted with a function of the charge *)
Lemma weighted_kern : forall (w : Z -> C) j,
  rsum (fun c => w c * rsum (fun b => kern (ind0 L b b c, j)) (states L c)) (charges L) =
  rsum (fun q => (w (q + 1)%Z - w q) * flow q j) (charges1 L).
Proof.
  intros w j.
  rewrite (rsum_ext _ _ _ (fun c => w (c - 1 + 1)%Z * flow (c - 1) j - w c * flow c j)).
  2:{ intros c Hc. apply charges_in in Hc. rewrite charge_diag by auto. replace (c - 1 + 1)%Z with c by lia. ring. }
  rewrite rsum_minus.
  assert (F0 : flow (-1) j = 0).
  { unfold flow. apply rsum_0. intros d _. now rewrite (cl_below L CL). }
  assert (F1 : flow (Z.of_nat (ly_ncharge L) - 1) j = 0).
  { unfold flow. replace (Z.of_nat (ly_ncharge L) - 1 + 1)%Z with (Z.of_nat (ly_ncharge L)) by lia. now rewrite (cl_above L CL). }
  destruct (shift_links C L (fun q => w (q + 1)%Z * flow q j)) as [-> _]; [rewrite F0; ring|rewrite F1; ring|].
  destruct (shift_links C L (fun q => w q * flow q j)) as [_ ->]; [rewrite F0; ring|rewrite F1; ring|].
  rewrite <- rsum_minus. apply rsum_ext. intros q _. ring.
Qed.

(** ** Hermitian density matrices *)
(** phi' is the adjoint of phi *)
Definition adjoint (phi phi' : Z -> C) : Prop := forall c b bp, (0 <= c < Z.of_nat (ly_ncharge L))%Z ->
  In b (states L c) -> In bp (states L c) -> phi' (ind0 L bp b c) = conj (phi (ind0 L b bp c)).
Definition hermitian_phi (phi : Z -> C) : Prop := adjoint phi phi.
Lemma shuffle_at : forall c b bp j, (0 <= c < Z.of_nat (ly_ncharge L))%Z -> In b (states L c) -> In bp (states L c) ->
  shuffle K L (ind0 L b bp c, j) = if Z.eq_dec j (ind0 L bp b c) then 1 else 0.
Proof.
  intros c b bp j Hc Hb Hbp. unfold shuffle.
  assert (IN : forall q x y, (0 <= q < Z.of_nat (ly_ncharge L))%Z -> In (x, y) (combinations_wr (states L q)) -> In x (states L q) /\ In y (states L q)).
  { intros q x y Hq H. apply combinations_wr_in in H. destruct H as [[-> H]|H]; auto.
    apply combinations2_in in H; [tauto|]. apply (cl_nodup L CL). lia. }
  apply run_writes_val.
  - intros u Hu EQ. apply in_flat_map in Hu. destruct Hu as (q & Hq & Hu). apply charges_in in Hq.
    apply in_flat_map in Hu. destruct Hu as ([x y] & Hxy & Hu). destruct (IN q x y Hq Hxy) as [Hx Hy].
    rewrite !at0_ind in Hu by (auto; lia).
    destruct Hu as [<-|[<-|[]]]; cbn [fst snd] in *; injection EQ as E1 E2.
    + destruct (cl_inj L CL x y q b bp c) as (-> & -> & ->); auto; try lia. rewrite <- E2. destruct (Z.eq_dec _ _); congruence.
    + destruct (cl_inj L CL y x q b bp c) as (-> & -> & ->); auto; try lia. rewrite <- E2. destruct (Z.eq_dec _ _); congruence.
  - destruct (Z.eq_dec j (ind0 L bp b c)) as [->|N]; [right|left; reflexivity].
    assert (X : In (b, bp) (combinations_wr (states L c)) \/ In (bp, b) (combinations_wr (states L c))).
    { rewrite !combinations_wr_in. destruct (Nat.eq_dec b bp) as [->|Hne]; auto.
      assert (ND : NoDup (states L c)) by (apply (cl_nodup L CL); lia).
      pose proof (combinations2_in (states L c) b bp ND) as (_ & Y & _). destruct Y; auto. }
    destruct X as [X|X].
    + exists ((ind0 L b bp c, ind0 L bp b c), 1). split; auto. apply in_flat_map. exists c. split; [now apply charges_in|].
      apply in_flat_map. exists (b, bp). split; auto. rewrite !at0_ind by (auto; lia). now left.
    + exists ((ind0 L b bp c, ind0 L bp b c), 1). split; auto. apply in_flat_map. exists c. split; [now apply charges_in|].
      apply in_flat_map. exists (bp, b). split; auto. rewrite !at0_ind by (auto; lia). right. now left.
Qed.

Lemma Pc_phi : forall phi phi' l cb, adjoint phi phi' ->
  rsum (fun j => Pc l cb (Z.of_nat j) * phi (Z.of_nat j)) (seq 0 n0) = conj (phi1 K L P phi' l cb).
Proof.
  intros phi phi' l cb H. unfold VN2K.Pc, phi1, VN2K.n0. rewrite rsum_conj.
  rewrite (rsum_ext _ _ _ (fun j => rsum (fun x => conj (P l cb (Z.of_nat x)) * shuffle K L (Z.of_nat x, Z.of_nat j) * phi (Z.of_nat j)) (seq 0 n0))).
  2:{ intros j _. now rewrite rsum_mul_r. }
  etransitivity; [apply rsum_swap|]. apply rsum_ext. intros x Hx. apply in_seq in Hx.
  destruct (cl_surj L CL x) as (b & bp & c & Hc & Hb & Hbp & Ex & _); [lia|].
  assert (Hc0 : (0 <= c)%Z) by lia. pose proof (cl_idx L CL bp b c Hc0 Hbp Hb) as R.
  rewrite (rsum_single C _ _ (seq 0 n0) (Z.to_nat (ind0 L bp b c))).
  - rewrite <- Ex, Z2Nat.id by lia. rewrite shuffle_at by auto. destruct (Z.eq_dec _ _); [|congruence].
    rewrite conj_mul. rewrite (H c bp b Hc Hbp Hb), conj_conj. ring.
  - apply seq_NoDup.
  - apply in_seq. lia.
  - intros y _ Hne. rewrite <- Ex, shuffle_at by auto. destruct (Z.eq_dec _ _) as [e|e]; [|ring]. exfalso. apply Hne. lia.
Qed.

Lemma adjoint_exists : forall phi, exists phi', adjoint phi phi'.
Proof.
  intros phi. exists (fun i => rsum (fun x => shuffle K L (i, Z.of_nat x) * conj (phi (Z.of_nat x))) (seq 0 n0)).
  intros c b bp Hc Hb Hbp. assert (Hc0 : (0 <= c)%Z) by lia. pose proof (cl_idx L CL b bp c Hc0 Hb Hbp) as R.
  rewrite (rsum_single C _ _ (seq 0 n0) (Z.to_nat (ind0 L b bp c))).
  - rewrite Z2Nat.id by lia. rewrite shuffle_at by auto. destruct (Z.eq_dec _ _); [ring|congruence].
  - apply seq_NoDup.
  - apply in_seq. lia.
  - intros y _ Hne. rewrite shuffle_at by auto. destruct (Z.eq_dec _ _) as [e|e]; [|ring]. exfalso. apply Hne. lia.
Qed.

Local Notation act := (KernelProofs.act C).
(** the action of the kernel on a matrix, with the help of its adjoint *)
Lemma act_row : forall phi phi' c b bp, adjoint phi phi' -> (0 <= c < Z.of_nat (ly_ncharge L))%Z ->
  In b (states L c) -> In bp (states L c) ->
  act n0 kern phi (ind0 L b bp c) = ofR (E b - E bp) * phi (ind0 L b bp c) +
    rsum (fun a => rsum (fun l => T l b a * conj (phi1 K L P phi' l (ind1 L bp a (c - 1))) -
       phi1 K L P phi l (ind1 L b a (c - 1)) * T l a bp) (leads nl)) (states L (c - 1)) +
    rsum (fun d => rsum (fun l => T l b d * phi1 K L P phi l (ind1 L d bp c) -
       conj (phi1 K L P phi' l (ind1 L d b c)) * T l d bp) (leads nl)) (states L (c + 1)).
Proof.
  intros phi phi' c b bp HP Hc Hb Hbp. unfold KernelProofs.act.
  rewrite (rsum_ext _ _ _ (fun j => (if Z.eq_dec (Z.of_nat j) (ind0 L b bp c) then ofR (E b - E bp) else 0) * phi (Z.of_nat j) +
    rsum (fun r => r (Z.of_nat j) * phi (Z.of_nat j)) (row_terms c b bp))).
  2:{ intros j _. rewrite kern_row by auto. rewrite rsum_mul_r. ring. }
  assert (Hc0 : (0 <= c)%Z) by lia. pose proof (cl_idx L CL b bp c Hc0 Hb Hbp) as R.
  rewrite rsum_plus. rewrite (rsum_single C _ _ (seq 0 n0) (Z.to_nat (ind0 L b bp c))).
  2: apply seq_NoDup. 2: apply in_seq; lia.
  2:{ intros y _ Hne. destruct (Z.eq_dec _ _) as [e|e]; [|ring]. exfalso. apply Hne. lia. }
  rewrite Z2Nat.id by lia. destruct (Z.eq_dec _ _); [|congruence].
  match goal with |- _ + ?y = _ + ?z + ?w => assert (y = z + w) as ->; [|ring] end.
  etransitivity; [apply rsum_swap|]. unfold row_terms. rewrite rsum_app, !rsum_flat_map. f_equal.
  - apply rsum_ext. intros a _. rewrite rsum_flat_map. apply rsum_ext. intros l _. cbn [rsum].
    rewrite <- (Pc_phi phi phi' l _ HP). unfold phi1, VN2K.n0.
    rewrite (rsum_ext _ _ _ (fun j => T l b a * (Pc l (ind1 L bp a (c - 1)) (Z.of_nat j) * phi (Z.of_nat j)))) by (intros; ring).
    rewrite rsum_mul_l.
    rewrite (rsum_ext _ _ (fun j => - (P l (ind1 L b a (c - 1)) (Z.of_nat j) * T l a bp) * phi (Z.of_nat j))
      (fun j => - T l a bp * (P l (ind1 L b a (c - 1)) (Z.of_nat j) * phi (Z.of_nat j)))) by (intros; ring).
    rewrite rsum_mul_l. ring.
  - apply rsum_ext. intros d _. rewrite rsum_flat_map. apply rsum_ext. intros l _. cbn [rsum].
    rewrite <- (Pc_phi phi phi' l _ HP). unfold phi1, VN2K.n0.
    rewrite (rsum_ext _ _ _ (fun j => T l b d * (P l (ind1 L d bp c) (Z.of_nat j) * phi (Z.of_nat j)))) by (intros; ring).
    rewrite rsum_mul_l.
    rewrite (rsum_ext _ _ (fun j => - (Pc l (ind1 L d b c) (Z.of_nat j) * T l d bp) * phi (Z.of_nat j))
      (fun j => - T l d bp * (Pc l (ind1 L d b c) (Z.of_nat j) * phi (Z.of_nat j)))) by (intros; ring).
    rewrite rsum_mul_l. ring.
Qed.
End Rows.

(** ** Statements *)
Section Props.
Variable K : CRing.
Local Notation C := (Cx K).
Local Open Scope rng_scope.
Add Ring KrP : (rth K).
Add Ring CrP : (rth (Cx K)).
Variables (n : nat) (name : string) (si : SI) (dm : DMI).
Hypothesis Hn : (1 <= n)%nat.
Hypothesis Hix : ix_of name n = IxLin \/ ix_of name n = IxCharge.
Hypothesis R : reach KDMc n name si dm.
Local Notation L := (lay_of dm).
Local Notation n0 := (ly_ndm0 L).
Local Notation act := (KernelProofs.act C).
Let CL : clayout L := clayout_reach n name si dm Hn Hix R.
Variables (nl : nat) (E : nat -> K) (T : nat -> nat -> nat -> C) (P : nat -> nat -> Z -> C).
Local Notation kern := (vn2_kern K L nl E T P).

(** the trace rows cancel, whatever the first-order table *)
Theorem C42_trace : forall j, rsum (fun c => rsum (fun b => kern (ind0 L b b c, j)) (states L c)) (charges L) = 0.
Proof.
  intros j. pose proof (weighted_kern K L nl E T P CL (fun _ => 1) j) as W. cbv beta in W.
  rewrite (rsum_ext _ _ _ (fun c => 1 * rsum (fun b => kern (ind0 L b b c, j)) (states L c))) by (intros; ring).
  rewrite W. apply (rsum_0 C). intros q _. ring.
Qed.

Lemma dmc_charge : forall c b, (0 <= c)%Z -> In b (states L c) -> charge_of si b = Z.to_nat c.
Proof.
  intros c b Hc Hb. destruct (zc c Hc) as (k & ->). rewrite Nat2Z.id. rewrite states_nat in Hb.
  destruct (considered_charge KDMc n name si dm Hn R k b Hb) as (_ & s & Es & Hs). unfold charge_of. now rewrite Es.
Qed.

Lemma ofR_rsum : forall A (f : A -> K) l, ofR (rsum f l) = rsum (fun x => ofR (f x)) l.
Proof. induction l as [|x l IH]; cbn [rsum]; [reflexivity|]. rewrite <- IH. apply cplx_eq; [reflexivity|]. symmetry. apply (Radd_0_l (rth K)). Qed.
Lemma twice_im : forall t x : C, conj t * conj x - t * x = Ci K * ofR (m2im K (x * t)).
Proof.
  intros [t1 t2] [x1 x2]. apply cplx_eq; unfold m2im.
  - rewrite re_mul. change (t1 * x1 - - t2 * - x2 - (t1 * x1 - t2 * x2) = 0 * (- (1 + 1) * (x1 * t2 + x2 * t1)) - 1 * 0). ring.
  - rewrite im_mul. change (t1 * - x2 + - t2 * x1 - (t1 * x2 + t2 * x1) = 0 * 0 + 1 * (- (1 + 1) * (x1 * t2 + x2 * t1))). ring.
Qed.
(** the charge-weighted action of the kernel is i times the sum of the lead currents *)
Theorem C42_current : forall phi, hermitian K T -> hermitian_phi K L phi ->
  weighted_action C L n0 kern phi (fun b => rnat C (charge_of si b)) =
  Ci K * ofR (rsum (vn2_current K L T P phi) (leads nl)).
Proof.
  intros phi HT HP. unfold weighted_action.
  rewrite (rsum_ext _ _ _ (fun c => rsum (fun j => rnat C (Z.to_nat c) * rsum (fun b => kern (ind0 L b b c, Z.of_nat j)) (states L c) *
     phi (Z.of_nat j)) (seq 0 n0))).
  2:{ intros c Hc. apply charges_in in Hc.
      rewrite (rsum_ext _ _ _ (fun b => rsum (fun j => rnat C (Z.to_nat c) * kern (ind0 L b b c, Z.of_nat j) * phi (Z.of_nat j)) (seq 0 n0))).
      - etransitivity; [apply rsum_swap|]. apply rsum_ext. intros j _. rewrite rsum_mul_r, rsum_mul_l. ring.
      - intros b Hb. rewrite (dmc_charge c b ltac:(lia) Hb). unfold KernelProofs.act. rewrite <- rsum_mul_l.
        apply rsum_ext. intros j _. ring. }
  etransitivity; [apply rsum_swap|].
  rewrite (rsum_ext _ _ _ (fun j => rsum (fun q => flow K L nl T P q (Z.of_nat j) * phi (Z.of_nat j)) (charges1 L))).
  2:{ intros j _. rewrite rsum_mul_r. rewrite (weighted_kern K L nl E T P CL (fun c => rnat C (Z.to_nat c)) (Z.of_nat j)).
      rewrite <- rsum_mul_r. apply rsum_ext. intros q Hq.
      assert (Hq0 : (0 <= q)%Z) by (unfold charges1 in Hq; apply in_map_iff in Hq; destruct Hq as (x & <- & _); lia).
      replace (Z.to_nat (q + 1)) with (S (Z.to_nat q)) by lia. cbn [rnat]. ring. }
  etransitivity; [apply rsum_swap|].
  transitivity (rsum (fun q => rsum (fun d => rsum (fun b => rsum (fun l =>
     Ci K * ofR (m2im K (phi1 K L P phi l (ind1 L d b q) * T l b d))) (leads nl)) (states L q)) (states L (q + 1))) (charges1 L)).
  - apply rsum_ext. intros q _. unfold flow.
    rewrite (rsum_ext _ _ _ (fun j => rsum (fun d => rsum (fun b => rsum (fun l =>
      T l d b * (VN2K.Pc K L P l (ind1 L d b q) (Z.of_nat j) * phi (Z.of_nat j)) -
      T l b d * (P l (ind1 L d b q) (Z.of_nat j) * phi (Z.of_nat j))) (leads nl)) (states L q)) (states L (q + 1)))).
    2:{ intros j _. rewrite <- rsum_mul_r. apply rsum_ext. intros d _. rewrite <- rsum_mul_r. apply rsum_ext. intros b _.
        rewrite <- rsum_mul_r. apply rsum_ext. intros l _. ring. }
    etransitivity; [apply rsum_swap|]. apply rsum_ext. intros d _.
    etransitivity; [apply rsum_swap|]. apply rsum_ext. intros b _.
    etransitivity; [apply rsum_swap|]. apply rsum_ext. intros l _.
    rewrite rsum_minus, !rsum_mul_l. rewrite (Pc_phi K L nl E T P CL phi phi l _ HP).
    change (rsum (fun j => P l (ind1 L d b q) (Z.of_nat j) * phi (Z.of_nat j)) (seq 0 n0)) with (phi1 K L P phi l (ind1 L d b q)).
    rewrite <- (HT l b d). apply twice_im.
  - rewrite (rsum_ext _ _ (fun q => _) (fun q => rsum (fun l => rsum (fun p =>
      Ci K * ofR (m2im K (phi1 K L P phi l (ind1 L (fst p) (snd p) q) * T l (snd p) (fst p)))) (list_prod (states L (q + 1)) (states L q))) (leads nl))).
    + etransitivity; [apply rsum_swap|]. rewrite ofR_rsum, <- rsum_mul_l. apply rsum_ext. intros l _.
      unfold vn2_current. rewrite ofR_rsum, <- rsum_mul_l. apply rsum_ext. intros q _.
      rewrite ofR_rsum, <- rsum_mul_l. reflexivity.
    + intros q _. symmetry. etransitivity; [apply rsum_swap|]. rewrite rsum_prod. reflexivity.
Qed.

Lemma act_diag0 : forall phi c b, stationary C n0 kern phi -> (0 <= c)%Z -> In b (states L c) -> act n0 kern phi (ind0 L b b c) = 0.
Proof.
  intros phi c b ST Hc Hb. pose proof (cl_idx L CL b b c Hc Hb Hb). specialize (ST (Z.to_nat (ind0 L b b c)) ltac:(lia)).
  now rewrite Z2Nat.id in ST by lia.
Qed.
Theorem C42_stationary : forall phi, hermitian K T -> hermitian_phi K L phi -> stationary C n0 kern phi ->
  rsum (vn2_current K L T P phi) (leads nl) = 0.
Proof.
  intros phi HT HP ST. pose proof (C42_current phi HT HP) as X. unfold weighted_action in X.
  rewrite (rsum_0 C) in X.
  - apply (f_equal im) in X. rewrite im_mul in X. cbn [re im ofR Ci] in X. symmetry.
    transitivity (im (0 : C)); [reflexivity|]. rewrite X. ring.
  - intros c Hc. apply charges_in in Hc. apply (rsum_0 C). intros b Hb. rewrite act_diag0 by (auto; lia). ring.
Qed.

Lemma conj_sub : forall a b : C, conj (a - b) = conj a - conj b.
Proof. intros [a1 a2] [b1 b2]. apply cplx_eq; cbn [re im conj]; [reflexivity|]. change (- (a2 - b2) = - a2 - - b2). ring. Qed.
(** adjoints: the kernel applied to the adjoint is minus the adjoint of the kernel applied to the matrix *)
Theorem C42_adjoint : forall phi phi' c b bp, hermitian K T -> adjoint K L phi phi' ->
  (0 <= c < Z.of_nat (ly_ncharge L))%Z -> In b (states L c) -> In bp (states L c) ->
  act n0 kern phi' (ind0 L bp b c) = - conj (act n0 kern phi (ind0 L b bp c)).
Proof.
  intros phi phi' c b bp HT AD Hc Hb Hbp.
  assert (AD' : adjoint K L phi' phi).
  { intros q x y Hq Hx Hy. now rewrite (AD q y x Hq Hy Hx), conj_conj. }
  rewrite (act_row K L nl E T P CL phi phi' c b bp AD Hc Hb Hbp).
  rewrite (act_row K L nl E T P CL phi' phi c bp b AD' Hc Hbp Hb).
  rewrite !conj_add, conj_mul, !rsum_conj. rewrite (AD c b bp Hc Hb Hbp).
  assert (CE : conj (ofR (E b - E bp)) = - (ofR (E bp - E b) : C)).
  { apply cplx_eq; cbn [re im ofR conj]; [|]; [change (E b - E bp = - (E bp - E b))|change (- (0 : K) = - 0)]; ring. }
  rewrite CE.
  match goal with |- _ + ?x + ?y = - (_ + ?z + ?w) => assert (x = - z) as ->; [|assert (y = - w) as ->; [|ring]] end.
  - rewrite <- rsum_opp. apply rsum_ext. intros a _. rewrite rsum_conj, <- rsum_opp. apply rsum_ext. intros l _.
    rewrite conj_sub, !conj_mul, conj_conj, !HT. ring.
  - rewrite <- rsum_opp. apply rsum_ext. intros a _. rewrite rsum_conj, <- rsum_opp. apply rsum_ext. intros l _.
    rewrite conj_sub, !conj_mul, conj_conj, !HT. ring.
Qed.

(** ** The solution found by solve_kern *)
Definition trace2 (phi : Z -> C) : C := rsum (fun c => rsum (fun b => phi (ind0 L b b c)) (states L c)) (charges L).
Lemma norm2 : forall phi, rsum (fun k => norm_vec C L (Z.of_nat k) * phi (Z.of_nat k)) (seq 0 n0) = trace2 phi.
Proof.
  intros phi. unfold trace2.
  rewrite (rsum_ext _ _ _ (fun k => rsum (fun c => rsum (fun b => (if Z.eq_dec (Z.of_nat k) (ind0 L b b c) then 1 else 0) * phi (Z.of_nat k))
     (states L c)) (charges L)) (seq 0 n0)).
  2:{ intros k _. unfold norm_vec. rewrite run_updates_sum, rsum_flat_map. unfold zeros.
      etransitivity; [apply (f_equal (fun z => z * phi (Z.of_nat k))); apply (Radd_0_l (rth C))|]. rewrite <- rsum_mul_r. apply rsum_ext. intros c _. rewrite rsum_map, <- rsum_mul_r.
      apply rsum_ext. intros b _. reflexivity. }
  etransitivity; [apply rsum_swap|]. apply rsum_ext. intros c Hc. apply charges_in in Hc.
  etransitivity; [apply rsum_swap|]. apply rsum_ext. intros b Hb.
  assert (Hc0 : (0 <= c)%Z) by lia. pose proof (cl_idx L CL b b c Hc0 Hb Hb) as B.
  rewrite (rsum_single C _ _ (seq 0 n0) (Z.to_nat (ind0 L b b c))).
  - rewrite Z2Nat.id by lia. destruct (Z.eq_dec _ _); [ring|congruence].
  - apply seq_NoDup.
  - apply in_seq. lia.
  - intros y _ Hne. destruct (Z.eq_dec _ _) as [e|e]; [|ring]. exfalso. apply Hne. lia.
Qed.
Lemma trace_row : forall phi c b, (0 <= c < Z.of_nat (ly_ncharge L))%Z -> In b (states L c) ->
  (forall i, (i < n0)%nat -> Z.of_nat i <> ind0 L b b c -> act n0 kern phi (Z.of_nat i) = 0) ->
  act n0 kern phi (ind0 L b b c) = 0.
Proof.
  intros phi c b Hc Hb H.
  assert (S : rsum (fun q => rsum (fun x => act n0 kern phi (ind0 L x x q)) (states L q)) (charges L) = 0).
  { unfold KernelProofs.act.
    rewrite (rsum_ext _ _ _ (fun q => rsum (fun j => rsum (fun x => kern (ind0 L x x q, Z.of_nat j)) (states L q) * phi (Z.of_nat j)) (seq 0 n0))).
    - etransitivity; [apply rsum_swap|]. apply (rsum_0 C). intros j _. rewrite rsum_mul_r, C42_trace. ring.
    - intros q _. etransitivity; [apply rsum_swap|]. apply rsum_ext. intros j _. now rewrite rsum_mul_r. }
  assert (Z0 : forall q x, (0 <= q < Z.of_nat (ly_ncharge L))%Z -> In x (states L q) -> (q, x) <> (c, b) -> act n0 kern phi (ind0 L x x q) = 0).
  { intros q x Hq Hx Hne. assert (Hq0 : (0 <= q)%Z) by lia. pose proof (cl_idx L CL x x q Hq0 Hx Hx) as B.
    specialize (H (Z.to_nat (ind0 L x x q)) ltac:(lia)). rewrite Z2Nat.id in H by lia. apply H. intros EQ. apply Hne.
    destruct (cl_inj L CL x x q b b c) as (-> & -> & _); auto; lia. }
  rewrite (rsum_single C _ _ (charges L) c) in S.
  - rewrite (rsum_single C _ _ (states L c) b) in S; auto.
    + apply (cl_nodup L CL). lia.
    + intros y Hy Hne. apply Z0; auto. congruence.
  - apply charges_nodup.
  - now apply charges_in.
  - intros y Hy Hne. apply charges_in in Hy. apply (rsum_0 C). intros x Hx. apply Z0; auto. congruence.
Qed.

Definition unique_solution (rows : nat) (M : Z * Z -> C) (v : Z -> C) : Prop := forall x y,
  solves C rows n0 M v x -> solves C rows n0 M v y -> forall i, (i < n0)%nat -> x (Z.of_nat i) = y (Z.of_nat i).

Theorem C42_solve : forall lin (symq : bool) r m s, hermitian K T -> (0 <= r < Z.of_nat (ly_npauli L))%Z -> m <> MOther ->
  (forall ij, sv_kern C s ij = kern ij) -> (forall i, sv_bvec C s i = 0) ->
  let rows := (if symq then n0 else S n0)%nat in
  let row := (if symq then r else Z.of_nat n0) in
  exact_solver C rows n0 lin ->
  let s' := solve_kern C L lin n0 symq r m s in
  sv_success C s' = true ->
  stationary C n0 kern (sv_phi0 C s') /\ trace2 (sv_phi0 C s') = 1 /\
  (unique_solution rows (replace_row C kern row (norm_vec C L)) (set_entry C zeros row 1) ->
     hermitian_phi K L (sv_phi0 C s') /\ rsum (vn2_current K L T P (sv_phi0 C s')) (leads nl) = 0).
Proof.
  intros lin symq r m s HT Hr Hm HK HB rows row EX s' SU.
  assert (X : exists x, sv_phi0 C s' = x /\ lin m (replace_row C (sv_kern C s) row (norm_vec C L)) (set_entry C (sv_bvec C s) row 1) = Some x).
  { revert SU. unfold s', solve_kern. fold row. destruct m; try congruence; destruct (lin _ _ _) as [x|]; cbn; try discriminate; eauto. }
  destruct X as (x & -> & EL). apply EX in EL. clear s' SU.
  assert (EL' : solves C rows n0 (replace_row C kern row (norm_vec C L)) (set_entry C zeros row 1) x).
  { intros i Hi. specialize (EL i Hi). unfold set_entry, zeros in *. rewrite act_replaced in *.
    rewrite HB in EL. rewrite <- EL. destruct (Z.eq_dec _ _); auto. unfold KernelProofs.act. apply rsum_ext. intros j _. now rewrite HK. }
  assert (DR : exists b c, (0 <= c < Z.of_nat (ly_ncharge L))%Z /\ In b (states L c) /\ ind0 L b b c = r /\ (r < Z.of_nat n0)%Z).
  { assert (NP : (ly_npauli L <= n0)%nat).
    { assert (Hns : ix_of name n <> IxSsq) by (destruct Hix; congruence). pose proof R as R'. apply reach_reached in R'; auto. destruct (rc_make _ _ _ _ _ R') as (qn & qi & d0 & lst & EQ & LE & SEL & SO & HQ).
      rewrite <- LE in SO. simpl. rewrite EQ. rewrite dm_npauli_eq by auto. rewrite dm_ndm0_eq by auto. lia. }
    destruct (cl_surj L CL (Z.to_nat r)) as (b & bp & c & Hc & Hb & Hbp & I & D); [lia|].
    assert (b = bp) by (apply D; lia). subst bp. exists b, c. rewrite I, Z2Nat.id by lia. repeat split; auto; lia. }
  (* what solving the replaced system means *)
  assert (MEAN : forall y, solves C rows n0 (replace_row C kern row (norm_vec C L)) (set_entry C zeros row 1) y <->
     stationary C n0 kern y /\ trace2 y = 1).
  { intros y. destruct DR as (b & c & Hc & Hb & I & Hrn). split.
    - intros SOL.
      assert (O : forall i, (i < n0)%nat -> Z.of_nat i <> row -> act n0 kern y (Z.of_nat i) = 0).
      { intros i Hi Hne. assert (Hi' : (i < rows)%nat) by (unfold rows; destruct symq; lia). specialize (SOL i Hi').
        rewrite act_replaced in SOL. unfold set_entry, zeros in SOL. destruct (Z.eq_dec _ _); [congruence|auto]. }
      split.
      + intros i Hi. destruct (Z.eq_dec (Z.of_nat i) row) as [e|Hne]; auto.
        rewrite e. unfold row in *. destruct symq; [|lia]. rewrite <- I. apply trace_row; auto. now rewrite I.
      + assert (Hr' : (Z.to_nat row < rows)%nat) by (unfold row, rows; destruct symq; lia). specialize (SOL _ Hr').
        rewrite act_replaced in SOL. unfold set_entry in SOL. rewrite Z2Nat.id in SOL by (unfold row; destruct symq; lia).
        destruct (Z.eq_dec _ _); [|congruence]. now rewrite norm2 in SOL.
    - intros [ST TR] i Hi. rewrite act_replaced. unfold set_entry, zeros. destruct (Z.eq_dec _ _) as [e|e].
      + now rewrite norm2.
      + apply ST. unfold rows, row in *. destruct symq; lia. }
  pose proof (proj1 (MEAN x) EL') as [ST TR]. split; auto. split; auto. intros UN.
  assert (HP : hermitian_phi K L x).
  { destruct (adjoint_exists K L nl E T P CL x) as (x' & AD). intros c b bp Hc Hb Hbp.
    assert (SOL' : solves C rows n0 (replace_row C kern row (norm_vec C L)) (set_entry C zeros row 1) x').
    { apply MEAN. split.
      - intros i Hi. destruct (cl_surj L CL i Hi) as (y & z & q & Hq & Hy & Hz & I & _). rewrite <- I.
        rewrite (C42_adjoint x x' q z y HT AD Hq Hz Hy).
        assert (Hq0 : (0 <= q)%Z) by lia. pose proof (cl_idx L CL z y q Hq0 Hz Hy) as B.
        specialize (ST (Z.to_nat (ind0 L z y q)) ltac:(lia)). rewrite Z2Nat.id in ST by lia. rewrite ST, conj_0. ring.
      - rewrite <- (conj_1 K), <- TR. unfold trace2. rewrite rsum_conj. apply rsum_ext. intros q Hq. apply charges_in in Hq.
        rewrite rsum_conj. apply rsum_ext. intros y Hy. apply (AD q y y); auto. }
    rewrite <- (AD c b bp Hc Hb Hbp). assert (Hc0 : (0 <= c)%Z) by lia. pose proof (cl_idx L CL bp b c Hc0 Hbp Hb) as B.
    specialize (UN x x' EL' SOL' (Z.to_nat (ind0 L bp b c)) ltac:(lia)). now rewrite Z2Nat.id in UN by lia. }
  split; auto. now apply C42_stationary.
Qed.
End Props.
Print Assumptions C42_trace.
Print Assumptions C42_current.
Print Assumptions C42_stationary.
Print Assumptions C42_adjoint.
Print Assumptions C42_solve.

(** ** Examples *)
Definition v_si : SI := fst (call_init KDMc 2 "charge").
Definition v_dm : DMI := snd (call_init KDMc 2 "charge").
Definition v_L : Lay := lay_of v_dm.
Example v_reach : reach KDMc 2 "charge" v_si v_dm.
Proof. apply reach_init. reflexivity. Qed.
Definition ZCx (a b : Z) : Cx ZRing := @mkC ZRing a b.
Definition v_E (b : nat) : ZRing := match b with 1 => 2%Z | 2 => 5%Z | 3 => 9%Z | _ => 0%Z end.
(** a Hermitian tunneling matrix with complex entries *)
Definition v_T (l a b : nat) : Cx ZRing :=
  if a <? b then ZCx (Z.of_nat (l + a + b)) (Z.of_nat (b * (l + 1)) - 2) else
  if b <? a then ZCx (Z.of_nat (l + a + b)) (2 - Z.of_nat (a * (l + 1))) else ZCx 0 0.
Definition v_P (l cb : nat) (j : Z) : Cx ZRing := ZCx (Z.of_nat (l + 2 * cb) - j) (Z.of_nat (l * cb) + 2 * j - 1).
Definition v_kern := vn2_kern ZRing v_L 2 v_E v_T v_P.
(** a Hermitian density matrix with a coherence *)
Definition v_phi (i : Z) : Cx ZRing :=
  if Z.eq_dec i (ind0 v_L 1 2 1) then ZCx 2 3 else if Z.eq_dec i (ind0 v_L 2 1 1) then ZCx 2 (-3) else ZCx (i + 1) 0.
Lemma v_hermitian : hermitian ZRing v_T.
Proof.
  intros l a b. unfold v_T. destruct (Nat.ltb_spec a b), (Nat.ltb_spec b a); try lia; try reflexivity;
  unfold ZCx; apply cplx_eq; cbn [conj re im]; change (@ropp ZRing) with Z.opp; f_equal; lia.
Qed.
Lemma v_hermitian_phi : hermitian_phi ZRing v_L v_phi.
Proof.
  intros c b bp Hc Hb Hbp. change (Z.of_nat (ly_ncharge v_L)) with 3%Z in Hc.
  assert (X : c = 0%Z \/ c = 1%Z \/ c = 2%Z) by lia. destruct X as [->|[->| ->]].
  - destruct Hb as [<-|[]], Hbp as [<-|[]]. reflexivity.
  - destruct Hb as [<-|[<-|[]]], Hbp as [<-|[<-|[]]]; reflexivity.
  - destruct Hb as [<-|[]], Hbp as [<-|[]]; reflexivity.
Qed.
Example C42_case :
  (ly_npauli v_L, ly_ndm0 v_L, ly_ndm1 v_L) = (4, 6, 4) /\
  map (vn2_current ZRing v_L v_T v_P v_phi) [0; 1] = [-1776; -3820]%Z /\
  map (fun i => v_kern (Z.of_nat i, 2%Z)) (seq 0 6) = [ZCx 0 62; ZCx 0 80; ZCx 0 110; ZCx 0 (-252); ZCx 27 101; ZCx (-27) 101] /\
  weighted_action (Cx ZRing) v_L 6 v_kern v_phi (fun b => rnat (Cx ZRing) (charge_of v_si b)) = ZCx 0 (-5596).
Proof. vm_compute. auto. Qed.

(** one level and two leads: 1/2 is occupied, a current flows from one lead to the other *)
Definition w_dm : DMI := snd (call_init KDMc 1 "Lin").
Definition w_si : SI := fst (call_init KDMc 1 "Lin").
Definition w_L : Lay := lay_of w_dm.
Example w_reach : reach KDMc 1 "Lin" w_si w_dm.
Proof. apply reach_init. reflexivity. Qed.
Definition QCx (a b : Z) : Cx QRing := @mkC QRing (qz a) (qz b).
Definition w_T (l a b : nat) : Cx QRing := QCx 1 0.
Definition w_P (l cb : nat) (j : Z) : Cx QRing :=
  match l, j with 0, 0%Z => QCx 0 1 | 1, 1%Z => QCx 0 (-1) | _, _ => QCx 0 0 end.
Definition w_kern := vn2_kern QRing w_L 2 (fun b => qz 3) w_T w_P.
Definition w_phi (i : Z) : Cx QRing := @mkC QRing qhalf (qz 0).
Definition cq_eqb (x y : Cx QRing) : bool :=
  (Qeq_bool (Qcanon.this (re x)) (Qcanon.this (re y)) && Qeq_bool (Qcanon.this (im x)) (Qcanon.this (im y)))%bool.
Lemma cq_eqb_eq : forall x y, cq_eqb x y = true -> x = y.
Proof.
  intros [x1 x2] [y1 y2] H. apply andb_prop in H. destruct H as [H1 H2].
  apply cplx_eq; apply Qcanon.Qc_is_canon; now apply Qeq_bool_iff.
Qed.
(** a solver that only knows this solution, and checks it *)
Definition w_lin (m : solmethod) (M : Z * Z -> Cx QRing) (b : Z -> Cx QRing) : option (Z -> Cx QRing) :=
  if forallb (fun i => cq_eqb (KernelProofs.act (Cx QRing) 2 M w_phi (Z.of_nat i)) (b (Z.of_nat i))) (seq 0 2)
  then Some w_phi else None.
Example w_exact : exact_solver (Cx QRing) 2 2 w_lin.
Proof.
  intros m M b x H i Hi. unfold w_lin in H. destruct (forallb _ _) eqn:F; [|discriminate]. injection H as <-.
  rewrite forallb_forall in F. specialize (F i ltac:(apply in_seq; lia)). now apply cq_eqb_eq.
Qed.
Example w_hermitian : hermitian QRing w_T.
Proof. intros l a b. apply cplx_eq; [reflexivity|]. apply Qcanon.Qc_is_canon. reflexivity. Qed.
Example C42_solve_case :
  sv_success _ (solve_kern (Cx QRing) w_L w_lin 2 true 0 MSolve
     (mkSolver (Cx QRing) w_kern zeros zeros None zeros true)) = true /\
  map (fun l => Qcanon.this (vn2_current QRing w_L w_T w_P w_phi l)) [0; 1] = [(-1)%Q; 1%Q].
Proof. vm_compute. auto. Qed.
Section Linear2.
Local Open Scope rng_scope.
Add Ring CqW : (rth (Cx QRing)).
(** two linear equations in two unknowns with an inverse of the matrix *)
Lemma linear2 : forall (M : Z * Z -> Cx QRing) v p q r s x y,
  p * M (0, 0)%Z + q * M (1, 0)%Z = 1 -> p * M (0, 1)%Z + q * M (1, 1)%Z = 0 ->
  r * M (0, 0)%Z + s * M (1, 0)%Z = 0 -> r * M (0, 1)%Z + s * M (1, 1)%Z = 1 ->
  solves (Cx QRing) 2 2 M v x -> solves (Cx QRing) 2 2 M v y -> forall i, (i < 2)%nat -> x (Z.of_nat i) = y (Z.of_nat i).
Proof.
  intros M v p q r s x y A1 A2 A3 A4 Hx Hy.
  assert (F : forall z, solves (Cx QRing) 2 2 M v z -> z 0%Z = p * v 0%Z + q * v 1%Z /\ z 1%Z = r * v 0%Z + s * v 1%Z).
  { intros z Hz. pose proof (Hz 0%nat ltac:(lia)) as E0. pose proof (Hz 1%nat ltac:(lia)) as E1.
    unfold KernelProofs.act in E0, E1. cbn [rsum seq] in E0, E1.
    change (Z.of_nat 0) with 0%Z in *. change (Z.of_nat 1) with 1%Z in *. rewrite <- E0, <- E1. split.
    - transitivity ((p * M (0, 0)%Z + q * M (1, 0)%Z) * z 0%Z + (p * M (0, 1)%Z + q * M (1, 1)%Z) * z 1%Z); [rewrite A1, A2|]; ring.
    - transitivity ((r * M (0, 0)%Z + s * M (1, 0)%Z) * z 0%Z + (r * M (0, 1)%Z + s * M (1, 1)%Z) * z 1%Z); [rewrite A3, A4|]; ring. }
  destruct (F x Hx) as [X0 X1]. destruct (F y Hy) as [Y0 Y1].
  intros [|[|i]] Hi; [change (Z.of_nat 0) with 0%Z|change (Z.of_nat 1) with 1%Z|lia]; congruence.
Qed.
End Linear2.
Definition qquart : QRing := rmul qhalf qhalf.
Example C42_solve_unique : unique_solution QRing w_dm 2 (replace_row (Cx QRing) w_kern 0 (norm_vec (Cx QRing) w_L)) (set_entry (Cx QRing) zeros 0%Z r1).
Proof.
  intros x y. apply (linear2 _ _ (@mkC QRing qhalf (qz 0)) (@mkC QRing (qz 0) qquart) (@mkC QRing qhalf (qz 0)) (@mkC QRing (qz 0) (ropp qquart)));
  apply cq_eqb_eq; vm_compute; reflexivity.
Qed.

(** ** Where it fails: elements without a number are written to the last row *)
(** coherences removed with remove_coherences *)
Theorem C42_removed_refuted : exists (T : nat -> nat -> nat -> Cx ZRing) P L',
  hermitian ZRing T /\ reach KDMc 2 "charge" v_si v_dm /\ remove_coherences (qfar ex_E 1) v_L = Some L' /\
  rsum (fun c => rsum (fun b => vn2_kern ZRing L' 1 v_E T P (ind0 L' b b c, 1%Z)) (states L' c)) (charges L') <> r0.
Proof.
  exists v_T, v_P. destruct (remove_coherences (qfar ex_E 1) v_L) as [L'|] eqn:E; [|vm_compute in E; discriminate].
  exists L'. split; [apply v_hermitian|]. split; [apply v_reach|]. split; [reflexivity|].
  vm_compute in E. injection E as <-. vm_compute. discriminate.
Qed.
Print Assumptions C42_removed_refuted.
(** a spin-resolved indexing *)
Theorem C42_sz_refuted : exists (T : nat -> nat -> nat -> Cx ZRing) P si dm,
  hermitian ZRing T /\ reach KDMc 2 "sz" si dm /\
  rsum (fun c => rsum (fun b => vn2_kern ZRing (lay_of dm) 1 v_E T P (ind0 (lay_of dm) b b c, 1%Z)) (states (lay_of dm) c)) (charges (lay_of dm)) <> r0.
Proof.
  exists v_T, v_P, (fst (call_init KDMc 2 "sz")), (snd (call_init KDMc 2 "sz")). split; [apply v_hermitian|]. split.
  - apply reach_init. reflexivity.
  - vm_compute. discriminate.
Qed.
Print Assumptions C42_sz_refuted.
