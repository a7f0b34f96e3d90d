(** Property C77: the single-particle matrices determine the many-body matrices. *)
From Coq Require Import String List Arith Lia ZArith Bool Ring.
From Verif Require Import Base Bits Indexing IndexingProofs RemoveProofs PropIndexing CRing Fock Operators OperatorsProofs PropOperators SingleMtr PropMixLeadsAmp.
Import ListNotations.
Open Scope nat_scope.
Local Notation length := List.length.

Section Props.
Variable K : CRing.
Notation C := (Cx K).
Add Ring CsM : (rth C).
Local Open Scope rng_scope.

Lemma pick_one : forall n a b (x : C) (F : nat -> nat -> C), (a < n)%nat -> (b < n)%nat ->
  rsum (fun i => rsum (fun j => (if eq2 (i, j) (a, b) then x else 0) * F i j) (seq 0 n)) (seq 0 n) = x * F a b.
Proof.
  intros n a b x F Ha Hb. rewrite (rsum_single C _ _ (seq 0 n) a).
  - rewrite (rsum_single C _ _ (seq 0 n) b).
    + destruct (eq2 (a, b) (a, b)); [reflexivity|congruence].
    + apply seq_NoDup.
    + apply in_seq. lia.
    + intros j _ Hj. destruct (eq2 (a, j) (a, b)); [congruence|ring].
  - apply seq_NoDup.
  - apply in_seq. lia.
  - intros i _ Hi. apply rsum_0. intros j _. destruct (eq2 (i, j) (a, b)); [congruence|ring].
Qed.
Lemma upd_contract : forall n (us : list ((nat * nat) * C)) (F : nat -> nat -> C), (forall k v, In (k, v) us -> (fst k < n /\ snd k < n)%nat) ->
  rsum (fun i => rsum (fun j => run_updates eq2 us zeros (i, j) * F i j) (seq 0 n)) (seq 0 n) = rsum (fun u => snd u * F (fst (fst u)) (snd (fst u))) us.
Proof.
  intros n us F H.
  transitivity (rsum (fun i => rsum (fun j => rsum (fun u => (if eq2 (i, j) (fst u) then snd u else 0) * F i j) us) (seq 0 n)) (seq 0 n)).
  { apply rsum_ext. intros i _. apply rsum_ext. intros j _. rewrite run_updates_sum, rsum_mul_r. unfold zeros. ring. }
  transitivity (rsum (fun i => rsum (fun u => rsum (fun j => (if eq2 (i, j) (fst u) then snd u else 0) * F i j) (seq 0 n)) us) (seq 0 n)).
  { apply rsum_ext. intros i _. apply rsum_swap. }
  rewrite rsum_swap. apply rsum_ext. intros [[a b] x] Hu. destruct (H _ _ Hu) as (Ha & Hb). exact (pick_one n a b x F Ha Hb).
Qed.

(** *** tleads *)
(** the matrix exists exactly for labels in range, and holds the sum of the amplitudes given for an entry *)
Theorem C77_tleads_entry : forall nl n tleads,
  (make_tleads_mtr K nl n tleads <> None <-> forall l i t, In ((l, i), t) tleads -> (l < nl /\ i < n)%nat) /\
  forall M, make_tleads_mtr K nl n tleads = Some M -> forall l i, M (l, i) = amp K tleads l i.
Proof.
  intros nl n tleads. unfold make_tleads_mtr. split.
  - split.
    + intros H l i t Hin. destruct (forallb _ tleads) eqn:E; [|congruence]. rewrite forallb_forall in E. specialize (E _ Hin). unfold in_shape in E. cbn in E.
      apply andb_prop in E. destruct E as (A & B). apply Nat.ltb_lt in A, B. auto.
    + intros H. replace (forallb _ tleads) with true; [discriminate|]. symmetry. apply forallb_forall. intros [[l i] t] Hin. destruct (H _ _ _ Hin) as (A & B).
      unfold in_shape. cbn. apply andb_true_intro. split; now apply Nat.ltb_lt.
  - intros M E l i. destruct (forallb _ tleads); [|discriminate]. injection E as <-. rewrite run_updates_sum. unfold amp, zeros.
    match goal with |- 0 + ?x = ?y => assert (X : x = y); [|rewrite X; ring] end.
    apply rsum_ext. intros [[l' i'] t] _. cbn [fst snd]. destruct (eq2 (l, i) (l', i')) as [Q|Q].
    + injection Q as -> ->. now rewrite !Nat.eqb_refl.
    + destruct (Nat.eqb_spec l' l) as [->|]; [|reflexivity]. destruct (Nat.eqb_spec i' i) as [->|]; [congruence|reflexivity].
Qed.
(** two collections with the same matrix give the same many-body amplitudes, whatever their order or form *)
Theorem C77_tleads : forall n name ops si nl tleads tleads' M M', reachable_si n name ops si ->
  make_tleads_mtr K nl n tleads = Some M -> make_tleads_mtr K nl n tleads' = Some M' ->
  (forall l i, (l < nl)%nat -> (i < n)%nat -> M (l, i) = M' (l, i)) ->
  exists T T', construct_Tba K si nl tleads zeros = Some T /\ construct_Tba K si nl tleads' zeros = Some T' /\
    forall l a b, (l < nl)%nat -> (a < si_nmany si)%nat -> (b < si_nmany si)%nat -> T (l, a, b) = T' (l, a, b).
Proof.
  intros n name ops si nl tleads tleads' M M' RS E E' H. pose proof (reachable_correct _ _ _ _ RS) as RC.
  destruct (C77_tleads_entry nl n tleads) as (R & V). destruct (C77_tleads_entry nl n tleads') as (R' & V').
  assert (HT := proj1 R ltac:(congruence)). assert (HT' := proj1 R' ltac:(congruence)).
  destruct (C13_tunnelling K n name ops si nl tleads zeros RS HT) as (T & ET & HV).
  destruct (C13_tunnelling K n name ops si nl tleads' zeros RS HT') as (T' & ET' & HV').
  exists T, T'. split; [exact ET|]. split; [exact ET'|]. intros l a b Hl Ha Hb.
  destruct (gs_ex _ _ _ RC a Ha) as (sa & Ea & La). destruct (gs_ex _ _ _ RC b Hb) as (sb & Eb & Lb).
  rewrite (HV l a b sa sb), (HV' l a b sa sb) by auto. f_equal.
  rewrite (tunnel_amp K n tleads), (tunnel_amp K n tleads') by (intros l1 i1 t1 Hi; first [apply (HT l1 i1 t1 Hi)|apply (HT' l1 i1 t1 Hi)]).
  apply rsum_ext. intros i Hi. apply in_seq in Hi. rewrite <- (V M E l i), <- (V' M' E' l i), (H l i) by lia. reflexivity.
Qed.

(** *** hsingle *)
Lemma hs_range : forall n hs, make_hsingle_mtr K n hs <> None -> forall i j h, In ((i, j), h) hs -> (i < n /\ j < n)%nat.
Proof.
  intros n hs H i j h Hin. unfold make_hsingle_mtr in H. destruct (forallb _ hs) eqn:E; [|congruence]. rewrite forallb_forall in E. specialize (E _ Hin). unfold in_shape in E. cbn in E.
  apply andb_prop in E. destruct E as (A & B). apply Nat.ltb_lt in A, B. auto.
Qed.
Lemma hop_matrix : forall n hs M sp sq, make_hsingle_mtr K n hs = Some M ->
  mel C (osum C (hop_op K true) hs) sp sq =
  rsum (fun i => rsum (fun j => M (i, j) * mel C (ocomp C (cre C j) (ann C i)) sp sq) (seq 0 n)) (seq 0 n).
Proof.
  intros n hs M sp sq E. assert (HR := hs_range n hs ltac:(congruence)). unfold make_hsingle_mtr in E. destruct (forallb _ hs); [|discriminate]. injection E as <-.
  rewrite (upd_contract n _ (fun i j => mel C (ocomp C (cre C j) (ann C i)) sp sq)).
  - rewrite osum_mel, rsum_flat_map. apply rsum_ext. intros [[i j] h] _. unfold hop_op, hsingle_updates. cbn [andb].
    destruct (Nat.eqb i j); cbn [negb rsum fst snd]; unfold mel, oplus, oscale, ozero; ring.
  - intros k v Hin. apply in_flat_map in Hin. destruct Hin as ([[i j] h] & Hin & Hu). destruct (HR _ _ _ Hin) as (A & B). unfold hsingle_updates in Hu.
    destruct Hu as [Q|Hu]; [injection Q as <- <-; auto|]. destruct (Nat.eqb i j); [destruct Hu|]. destruct Hu as [Q|[]]. injection Q as <- <-. auto.
Qed.
(** the many-body Hamiltonian of a block is sum_ij M_ij d_j^+ d_i: the second quantisation of the transposed matrix *)
Theorem C77_hsingle : forall n name ops si hs M statelst ham_, reachable_si n name ops si -> make_hsingle_mtr K n hs = Some M ->
  closed_block si (moves (map fst hs)) statelst ->
  exists ham, construct_ham_hopping K si true hs statelst ham_ = Some ham /\
    forall p q sp sq, block_state si statelst p sp -> block_state si statelst q sq ->
      ham (p, q) = ham_ (p, q) + rsum (fun i => rsum (fun j => M (i, j) * mel C (ocomp C (cre C j) (ann C i)) sp sq) (seq 0 n)) (seq 0 n).
Proof.
  intros n name ops si hs M statelst ham_ RS E CB.
  destruct (C14_hopping_block K n name ops si true hs statelst ham_ RS (hs_range n hs ltac:(congruence)) CB) as (ham & EH & HV).
  exists ham. split; [exact EH|]. intros p q sp sq Hp Hq. rewrite (HV p q sp sq Hp Hq), (hop_matrix n hs M sp sq E). reflexivity.
Qed.
(** collections with the same matrix give the same Hamiltonian in every charge block *)
Theorem C77_same_matrix : forall n name ops si hs hs' M M' c, reachable_si n name ops si -> (c <= n)%nat ->
  make_hsingle_mtr K n hs = Some M -> make_hsingle_mtr K n hs' = Some M' -> (forall i j, (i < n)%nat -> (j < n)%nat -> M (i, j) = M' (i, j)) ->
  exists blk ham ham', get_lst si c None None = Some blk /\ construct_ham_hopping K si true hs blk zeros = Some ham /\ construct_ham_hopping K si true hs' blk zeros = Some ham' /\
    forall p q sp sq, block_state si blk p sp -> block_state si blk q sq -> ham (p, q) = ham' (p, q).
Proof.
  intros n name ops si hs hs' M M' c RS Hc E E' H.
  destruct (C14_charge_block K n name ops si true hs c zeros RS (hs_range n hs ltac:(congruence)) Hc) as (blk & ham & B & EH & HV).
  destruct (C14_charge_block K n name ops si true hs' c zeros RS (hs_range n hs' ltac:(congruence)) Hc) as (blk' & ham' & B' & EH' & HV').
  rewrite B in B'. injection B' as <-. exists blk, ham, ham'. split; [exact B|]. split; [exact EH|]. split; [exact EH'|]. intros p q sp sq Hp Hq.
  rewrite (HV p q sp sq Hp Hq), (HV' p q sp sq Hp Hq), (hop_matrix n hs M sp sq E), (hop_matrix n hs' M' sp sq E'). f_equal.
  apply rsum_ext. intros i Hi. apply rsum_ext. intros j Hj. apply in_seq in Hi, Hj. now rewrite H by lia.
Qed.
(** the matrix is Hermitian if the diagonal entries given are real *)
Theorem C77_hermitian : forall n hs M, make_hsingle_mtr K n hs = Some M -> (forall i h, In ((i, i), h) hs -> conj h = h) -> forall i j, M (i, j) = conj (M (j, i)).
Proof.
  intros n hs M E HD i j. unfold make_hsingle_mtr in E. destruct (forallb _ hs); [|discriminate]. injection E as <-.
  rewrite !run_updates_sum. unfold zeros. rewrite conj_add, conj_0, rsum_conj, !rsum_flat_map. f_equal. apply rsum_ext. intros [[a b] h] Hin. unfold hsingle_updates.
  destruct (Nat.eqb_spec a b) as [->|Hne]; cbn [rsum fst snd].
  - specialize (HD b h Hin). destruct (eq2 (i, j) (b, b)) as [Q|Q], (eq2 (j, i) (b, b)) as [Q'|Q']; rewrite ?HD, ?conj_0; try ring; congruence.
  - destruct (eq2 (i, j) (a, b)), (eq2 (j, i) (a, b)), (eq2 (i, j) (b, a)), (eq2 (j, i) (b, a)); rewrite ?conj_0, ?conj_conj; try ring; congruence.
Qed.
End Props.
Print Assumptions C77_tleads_entry.
Print Assumptions C77_tleads.
Print Assumptions C77_hsingle.
Print Assumptions C77_same_matrix.
Print Assumptions C77_hermitian.

(** ** make_hsingle_mtr is not the matrix construct_ham_hopping uses: hsingle[(0,1)] = i is entry (0,1) of the matrix, but
    <electron in level 0| H |electron in level 1> = -i *)
Local Notation ex_hs := [((0%nat, 1%nat), ZC 0 1)].
Theorem C77_matrix_element_refuted : exists M ham p0 p1 blk,
  make_hsingle_mtr ZRing 2 ex_hs = Some M /\ get_lst (si_init 2 "charge") 1 None None = Some blk /\
  construct_ham_hopping ZRing (si_init 2 "charge") true ex_hs blk zeros = Some ham /\
  block_state (si_init 2 "charge") blk p0 [true; false] /\ block_state (si_init 2 "charge") blk p1 [false; true] /\
  M (0%nat, 1%nat) = ZC 0 1 /\ ham (p0, p1) = ZC 0 (-1) /\ ham (p1, p0) = ZC 0 1.
Proof.
  assert (RS : reachable_si 2 "charge" [] (si_init 2 "charge")) by (split; [lia|]; split; [intros k []|]; split; [reflexivity|left; reflexivity]).
  destruct (C14_charge_block ZRing 2 "charge" [] (si_init 2 "charge") true ex_hs 1 zeros RS) as (blk & ham & B & EH & HV).
  { intros i j h [Q|[]]. injection Q as <- <- _. lia. } { lia. }
  assert (Eb : blk = [1; 2]%nat) by (vm_compute in B; injection B as <-; reflexivity).
  exists (run_updates eq2 (flat_map (hsingle_updates ZRing) ex_hs) zeros), ham, 1%nat, 0%nat, blk.
  assert (B0 : block_state (si_init 2 "charge") blk 1%nat [true; false]) by (subst blk; eexists; split; vm_compute; reflexivity).
  assert (B1 : block_state (si_init 2 "charge") blk 0%nat [false; true]) by (subst blk; eexists; split; vm_compute; reflexivity).
  split; [reflexivity|]. split; [exact B|]. split; [exact EH|]. split; [exact B0|]. split; [exact B1|]. split; [vm_compute; reflexivity|].
  split; [rewrite (HV _ _ _ _ B0 B1)|rewrite (HV _ _ _ _ B1 B0)]; vm_compute; reflexivity.
Qed.
Print Assumptions C77_matrix_element_refuted.

(** *** Examples *)
(** an entry given twice in a list, in another order, and as one entry *)
Example C77_tleads_case : exists M M',
  make_tleads_mtr ZRing 2 2 [((0%nat, 1%nat), ZC 1 2); ((1%nat, 0%nat), ZC 5 0); ((0%nat, 1%nat), ZC 3 4)] = Some M /\
  make_tleads_mtr ZRing 2 2 [((1%nat, 0%nat), ZC 5 0); ((0%nat, 1%nat), ZC 4 6)] = Some M' /\ M (0%nat, 1%nat) = ZC 4 6 /\
  (forall l i, (l < 2)%nat -> (i < 2)%nat -> M (l, i) = M' (l, i)) /\ make_tleads_mtr ZRing 2 2 [((2%nat, 0%nat), ZC 1 0)] = None.
Proof.
  eexists. eexists. split; [reflexivity|]. split; [reflexivity|]. split; [vm_compute; reflexivity|]. split; [|reflexivity].
  intros l i Hl Hi. destruct l as [|[|l]]; try lia; destruct i as [|[|i]]; try lia; vm_compute; reflexivity.
Qed.
(** hsingle[(0,1)] = 1+2i and hsingle[(1,0)] = 1-2i are the same matrix *)
Example C77_same_matrix_case : exists M M',
  make_hsingle_mtr ZRing 2 [((0%nat, 0%nat), ZC 3 0); ((0%nat, 1%nat), ZC 1 2)] = Some M /\
  make_hsingle_mtr ZRing 2 [((1%nat, 0%nat), ZC 1 (-2)); ((0%nat, 0%nat), ZC 3 0)] = Some M' /\ M (1%nat, 0%nat) = ZC 1 (-2) /\
  (forall i j, (i < 2)%nat -> (j < 2)%nat -> M (i, j) = M' (i, j)).
Proof.
  eexists. eexists. split; [reflexivity|]. split; [reflexivity|]. split; [vm_compute; reflexivity|].
  intros l i Hl Hi. destruct l as [|[|l]]; try lia; destruct i as [|[|i]]; try lia; vm_compute; reflexivity.
Qed.
