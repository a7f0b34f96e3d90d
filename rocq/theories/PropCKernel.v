(** Property C65: the compiled kernel handler visits the same elements as the Python loops, and the parallel assembly of
    the kernel gives the same result whatever the threads do. *)
From Coq Require Import String List Arith Lia ZArith Bool Permutation QArith.
From Verif Require Import Base Bits Indexing IndexingProofs RemoveProofs Binom SsqProofs Qn
  PropIndexing DMIndex DMIndexProofs DMReach PropDMIndex SsqNumbering PropSsqNumbering CRing Layout Coherences Kernel KernelProofs
  CKernelHandler CKernelProofs CKernelNumbers PropCoherences.
Import ListNotations.
Open Scope string_scope.
Open Scope nat_scope.
Local Notation length := List.length.

(** with 'ssq' the considered states must be whole multiplets (C48) *)
Definition fit (kd : kind) (n : nat) (name : string) (si : SI) (dm : DMI) : Prop :=
  1 <= n /\ kd <> KPauli /\ reach kd n name si dm /\ (ix_of name n = IxSsq -> whole_multiplets si dm).
Lemma fit_tagged : forall kd n name si dm, fit kd n name si dm -> tagged kd dm.
Proof.
  intros kd n name si dm (Hn & _ & R & W). destruct (ix_of name n) eqn:X; try (eapply tagged_reach; eauto; congruence).
  assert (Y : name = "ssq" /\ Nat.even n = true).
  { unfold ix_of in X. destruct (String.eqb_spec name "charge"); [discriminate|].
    destruct (String.eqb_spec name "ssq") as [->|]; [|destruct (_ && _)%bool; discriminate]. split; auto.
    destruct (Nat.even n); auto. rewrite andb_false_r in X. discriminate. }
  destruct Y as (-> & He). eapply tagged_ssq; eauto.
Qed.
(** self.no_conjugates = not isinstance(si, StateIndexingDMc) *)
Definition no_conjugates (kd : kind) : bool := match kd with KDMc => false | _ => true end.
Definition number_of (dm : DMI) (r : row) : option Z := let '(b, bp, c) := r in get_ind_dm0 dm b bp c.

Lemma bool_uniq : forall kd dm b bp c, tagged kd dm -> kd <> KPauli -> In b (considered dm c) -> In bp (considered dm c) ->
  (get_bool_dm0 dm b bp c = Some true <-> uniq (lay_of dm) b bp (Z.of_nat c) = true).
Proof.
  intros kd dm b bp c TG KD Hb Hbp. split.
  - intros H. now apply (uniq_some kd dm TG KD).
  - intros U. destruct (tg_found kd dm TG KD b bp c Hb Hbp) as [(e & He & <- & <- & <-)|(_ & G)].
    + destruct (tg_in _ _ TG e He) as (_ & B). pose proof (uniq_some kd dm TG KD _ _ _ _ B). congruence.
    + pose proof (uniq_some kd dm TG KD _ _ _ _ G). congruence.
Qed.

(** *** The array all_bbp: every element that has a number of its own once, nothing else, no write outside the array *)
Theorem C65_elements : forall kd n name si dm, fit kd n name si dm ->
  exists l, set_all_bbp false (no_conjugates kd) (lay_of dm) = Some l /\
    length l = dm_ndm0 dm /\ NoDup l /\
    (forall b bp c, In (b, bp, c) l <->
       In b (considered dm c) /\ In bp (considered dm c) /\ get_bool_dm0 dm b bp c = Some true) /\
    Permutation (map (number_of dm) l) (map (fun k => Some (Z.of_nat k)) (seq 0 (dm_ndm0 dm))).
Proof.
  intros kd n name si dm FT. pose proof (fit_tagged _ _ _ _ _ FT) as TG. destruct FT as (_ & KD & _).
  exists (unique_rows false (no_conj_of kd) (lay_of dm)). split; [apply (all_bbp_fills kd dm TG KD)|].
  split; [rewrite <- (Permutation_length (rows_perm kd dm TG KD)); apply (numbered_length kd dm TG)|].
  split; [apply unique_rows_nodup; intros c; apply (tg_nodup _ _ TG)|]. split.
  - intros b bp c. rewrite (rows_in kd dm TG KD). split; intros (A & B & C); repeat split; auto; apply (bool_uniq kd); auto.
  - rewrite <- (rows_perm kd dm TG KD). rewrite <- (tg_seq _ _ TG). unfold numbered_rows. rewrite !map_map. apply Permutation_refl'.
    apply map_ext_in. intros e He. apply filter_In in He. destruct He as (He & _). cbn. apply (tg_in _ _ TG e He).
Qed.
Print Assumptions C65_elements.

(** with no_coherences = True (Pauli, RTD): the diagonal elements *)
Theorem C65_diagonal : forall kd n name si dm no_conj, fit kd n name si dm ->
  exists l, set_all_bbp true no_conj (lay_of dm) = Some l /\
    length l = dm_npauli dm /\ NoDup l /\
    (forall b bp c, In (b, bp, c) l <-> b = bp /\ In b (considered dm c) /\ get_bool_dm0 dm b bp c = Some true) /\
    Permutation (map (number_of dm) l) (map (fun k => Some (Z.of_nat k)) (seq 0 (dm_npauli dm))).
Proof.
  intros kd n name si dm no_conj FT. pose proof (fit_tagged _ _ _ _ _ FT) as TG. destruct FT as (_ & KD & _).
  assert (ND : NoDup (unique_rows true no_conj (lay_of dm))) by (apply unique_rows_nodup; intros c; apply (tg_nodup _ _ TG)).
  assert (LN : length (unique_rows true no_conj (lay_of dm)) = dm_npauli dm)
    by (rewrite <- (Permutation_length (diag_perm kd dm TG KD no_conj)); apply (diag_length kd dm TG)).
  assert (MEM : forall b bp c, In (b, bp, c) (unique_rows true no_conj (lay_of dm)) <-> b = bp /\ In b (considered dm c) /\ uniq (lay_of dm) b bp (Z.of_nat c) = true).
  { intros b bp c. rewrite <- (diag_in kd dm TG KD). pose proof (diag_perm kd dm TG KD no_conj) as PM.
    split; apply Permutation_in; auto using Permutation_sym. }
  exists (unique_rows true no_conj (lay_of dm)). split; [apply (all_bb_fills kd dm TG KD)|]. split; auto. split; auto. split.
  - intros b bp c. rewrite MEM. split; intros (-> & B & C); repeat split; auto; apply (bool_uniq kd); auto.
  - assert (NUM : forall b bp c, In (b, bp, c) (unique_rows true no_conj (lay_of dm)) -> exists k, k < dm_npauli dm /\ number_of dm (b, bp, c) = Some (Z.of_nat k)).
    { intros b bp c H. apply MEM in H. destruct H as (-> & Hb & U). apply (uniq_event kd dm TG KD) in U; auto.
      destruct U as (e & He & D & E1 & E2 & E3). exists (e_cnt e). split; [apply (tg_diag _ _ TG e He D); congruence|].
      destruct (tg_in _ _ TG e He) as (I & _). cbn. now rewrite E1, E2, E3 in I. }
    apply NoDup_Permutation_bis.
    + apply map_nodup_in; auto. intros [[b bp] c] [[b' bp'] c'] H H' E. apply MEM in H, H'. destruct H as (-> & Hb & U). destruct H' as (-> & Hb' & U').
      apply (num_inj kd dm TG KD); [cbn; auto|cbn; auto|]. cbn. cbn in E.
      assert (G : forall x q, In x (considered dm q) -> get_ind_dm0 dm x x q = Some (ind0 (lay_of dm) x x (Z.of_nat q))).
      { intros x q Hx. destruct (tg_found kd dm TG KD x x q Hx Hx) as [(e & He & E1 & E2 & E3)|(I & _)].
        - destruct (tg_in _ _ TG e He) as (I & _). rewrite E1, E2, E3 in I. rewrite I. f_equal. symmetry. now apply (ind_some kd dm TG KD).
        - rewrite I. f_equal. symmetry. now apply (ind_some kd dm TG KD). }
      rewrite !G in E by auto. now injection E.
    + rewrite !map_length, seq_length, LN. auto.
    + intros o Ho. apply in_map_iff in Ho. destruct Ho as ([[b bp] c] & <- & H). destruct (NUM _ _ _ H) as (k & Hk & ->).
      apply in_map_iff. exists k. split; auto. apply in_seq. lia.
Qed.
Print Assumptions C65_diagonal.

(** the array all_ba of the first-order elements *)
Theorem C65_first_order : forall kd n name si dm, 1 <= n -> kd <> KPauli -> reach kd n name si dm ->
  exists l, set_all_ba (lay_of dm) = Some l /\ length l = dm_ndm1 dm /\ NoDup l /\
    (forall b a c, In (b, a, c) l <-> In b (considered dm (S c)) /\ In a (considered dm c)) /\
    Permutation (map (fun r => let '(b, a, c) := r in get_ind_dm1 dm b a c) l) (seq 0 (dm_ndm1 dm)).
Proof.
  intros kd n name si dm Hn KD R. destruct (C09_first_order_slots kd n name si dm Hn KD R) as (P1 & P2 & P3).
  pose proof R as R0. apply reach_reached in R0; auto.
  destruct (rc_make _ _ _ _ _ R0) as (qn & qi & d0 & lst & E & L0 & SEL & SO & HQ). rewrite <- L0 in SO.
  pose proof (dm_fields kd (ix_of name n) qn qi (n + 1) d0 (lst ++ [[]])) as F. rewrite <- E in F.
  destruct F as (F1 & F2 & F3 & _).
  set (L := lay_of dm). assert (NC : ly_ncharge L = n + 1) by (cbn; exact F2).
  set (l := flat_map (fun bc => flat_map (fun b => map (fun a => (b, a, bc - 1)) (considered dm (bc - 1))) (considered dm bc)) (seq 1 (ly_ncharge L - 1))).
  assert (CD : forall c b, In b (considered dm c) -> c < n + 1).
  { intros c b H. unfold considered in H. rewrite F3 in H. destruct (so_in _ _ _ _ _ SO H). auto. }
  assert (CN : forall c, NoDup (considered dm c)) by (intros c; unfold considered; rewrite F3; eapply so_block_nodup; eauto).
  assert (ROWS : ba_rows L = Some l).
  { unfold ba_rows, l. apply oflat_some. intros bc Hbc. apply in_seq in Hbc. rewrite !c_count_at.
    change (nth bc (ly_statesdm L) []) with (considered dm bc). change (nth (bc - 1) (ly_statesdm L) []) with (considered dm (bc - 1)).
    transitivity (Some (flat_map (fun i => flat_map (fun j => [(nth i (considered dm bc) 0, nth j (considered dm (bc - 1)) 0, bc - 1)])
       (seq 0 (length (considered dm (bc - 1))))) (seq 0 (length (considered dm bc))))).
    - apply oflat_some. intros i Hi. apply in_seq in Hi. apply oflat_some. intros j Hj. apply in_seq in Hj.
      rewrite (c_state_at L bc i), (c_state_at L (bc - 1) j) by (unfold L; cbn [ly_statesdm lay_of]; fold (considered dm bc); fold (considered dm (bc - 1)); lia). reflexivity.
    - f_equal. rewrite <- (map_nth_seq _ (considered dm bc) 0 _ eq_refl) at 2. rewrite flat_map_map. apply flat_map_ext. intros i.
      rewrite <- (map_nth_seq _ (considered dm (bc - 1)) 0 _ eq_refl) at 2. rewrite map_map.
      match goal with |- _ = map ?f ?s => induction s as [|a r IH]; cbn; auto; now rewrite <- IH end. }
  assert (MEM : forall b a c, In (b, a, c) l <-> In b (considered dm (S c)) /\ In a (considered dm c)).
  { intros b a c. unfold l. rewrite in_flat_map. split.
    - intros (bc & Hbc & H). apply in_seq in Hbc. apply in_flat_map in H. destruct H as (x & Hx & H). apply in_map_iff in H. destruct H as (y & Ey & Hy).
      injection Ey as <- <- <-. replace (S (bc - 1)) with bc by lia. auto.
    - intros (Hb & Ha). pose proof (CD _ _ Hb). exists (S c). split; [apply in_seq; lia|]. apply in_flat_map. exists b. split; auto.
      apply in_map_iff. exists a. replace (S c - 1) with c by lia. auto. }
  assert (ND : NoDup l).
  { unfold l. apply NoDup_flat_map; [apply seq_NoDup| |].
    - intros bc _. apply NoDup_flat_map; [apply CN| |].
      + intros b _. apply FinFun.Injective_map_NoDup; auto. intros x y Exy. now injection Exy.
      + intros x y r _ _ H1 H2. apply in_map_iff in H1, H2. destruct H1 as (? & <- & _). destruct H2 as (? & Exy & _). now injection Exy.
    - intros x y r Hx Hy H1 H2. apply in_seq in Hx, Hy. apply in_flat_map in H1, H2. destruct H1 as (? & _ & H1). destruct H2 as (? & _ & H2).
      apply in_map_iff in H1, H2. destruct H1 as (? & <- & _). destruct H2 as (? & Exy & _). injection Exy as _ _ Ec. lia. }
  set (num := fun r : row => let '(b, a, c) := r in get_ind_dm1 dm b a c).
  assert (PERM : Permutation (map num l) (seq 0 (dm_ndm1 dm))).
  { apply NoDup_Permutation; [|apply seq_NoDup|].
    - apply map_nodup_in; auto. intros [[b a] c] [[b' a'] c'] H H' Eq. apply MEM in H, H'. destruct (P2 b a c b' a' c') as (-> & -> & ->); tauto.
    - intros k. rewrite in_seq, in_map_iff. split.
      + intros ([[b a] c] & <- & H). apply MEM in H. split; [lia|]. apply P1; tauto.
      + intros (_ & Hk). destruct (P3 k) as (b & a & c & A & B & <-); [lia|]. exists (b, a, c). split; auto. apply MEM. auto. }
  assert (LN : length l = dm_ndm1 dm) by (rewrite <- (map_length num), (Permutation_length PERM); apply seq_length).
  exists l. split; [unfold set_all_ba; rewrite ROWS; apply write_rows_full; exact LN|]. auto.
Qed.
Print Assumptions C65_first_order.

(** *** The parallel loop *)
Section Loop.
Variable K : CRing.
Local Notation C := (Cx K).
Local Open Scope rng_scope.

(** what the coupling terms of the listed elements may write to: only the element itself *)
Definition writes_itself (L : Lay) (l : list row) (cpl : nat -> nat -> Z -> list (call K)) : Prop :=
  forall b bp q x, In (b, bp, q) l -> let c := Z.of_nat q in In x (cpl b bp c) ->
  match x with
  | CEnergy _ _ _ _ _ => False
  | CElem _ _ b' bp' c' _ _ _ => b' = b /\ bp' = bp /\ c' = c
  | CPauli _ _ _ bb _ => bb = ind0 L b bp c
  end.

(** No schedule of the threads changes anything: with any addition [add] (in particular the rounded one, so that the
    statement is about bits) the memory after the loop is that of the loop in order. *)
Theorem C65_parallel : forall kd n name si dm no_coh l E cpl, fit kd n name si dm ->
  set_all_bbp no_coh (no_conjugates kd) (lay_of dm) = Some l -> writes_itself (lay_of dm) l cpl ->
  (forall add m0 sched, finished (run_sched eqZZ add sched (start (kern_progs K (lay_of dm) E cpl l) m0)) ->
     forall i, mem (run_sched eqZZ add sched (start (kern_progs K (lay_of dm) E cpl l) m0)) i =
               run_seq eqZZ add (concat (kern_progs K (lay_of dm) E cpl l)) m0 i) /\
  (forall phi add m0 sched, finished (run_sched Z.eq_dec add sched (start (vec_progs K (lay_of dm) phi E cpl l) m0)) ->
     forall i, mem (run_sched Z.eq_dec add sched (start (vec_progs K (lay_of dm) phi E cpl l) m0)) i =
               run_seq Z.eq_dec add (concat (vec_progs K (lay_of dm) phi E cpl l)) m0 i) /\
  (forall add m0 sched, exists sched', finished (run_sched eqZZ add (sched ++ sched') (start (kern_progs K (lay_of dm) E cpl l) m0))) /\
  (forall phi add m0 sched, exists sched', finished (run_sched Z.eq_dec add (sched ++ sched') (start (vec_progs K (lay_of dm) phi E cpl l) m0))).
Proof.
  intros kd n name si dm no_coh l E cpl FT SB WI. pose proof (fit_tagged _ _ _ _ _ FT) as TG. pose proof FT as FT0. destruct FT0 as (_ & KD & _).
  assert (LS : (forall r, In r l -> listed dm r) /\ NoDup l).
  { destruct no_coh.
    - destruct (C65_diagonal kd n name si dm (no_conjugates kd) FT) as (l' & A & _ & ND & M & _). rewrite SB in A. injection A as <-.
      split; auto. intros [[b bp] c] H. apply M in H. destruct H as (-> & Hb & U). cbn. repeat split; auto. apply (bool_uniq kd); auto.
    - destruct (C65_elements kd n name si dm FT) as (l' & A & _ & ND & M & _). rewrite SB in A. injection A as <-.
      split; auto. intros [[b bp] c] H. apply M in H. destruct H as (Hb & Hbp & U). cbn. repeat split; auto. apply (bool_uniq kd); auto. }
  destruct LS as (LS & ND). assert (AM : forall r, In r l -> aimed K dm cpl r) by (intros [[b bp] c] H x Hx; exact (WI b bp c x H Hx)).
  split; [|split; [|split]].
  - apply (par_kernel K kd dm TG KD E cpl l LS AM ND).
  - apply (par_vec K kd dm TG KD E cpl l LS AM ND).
  - intros. apply can_finish_later.
  - intros. apply can_finish_later.
Qed.

(** *** The kernel is that of the Python code *)
Section Same.
Variables (n : nat) (name : string) (si : SI) (dm : DMI).
Hypothesis FT : fit KDM n name si dm.
Let L := lay_of dm.
Variable nl : nat.
Lemma cst : forall c, (-1 <= c <= Z.of_nat (ly_ncharge L))%Z -> c_states L c = states L c.
Proof.
  intros c Hc. apply c_states_eq; auto. destruct FT as (Hn & _ & R & _). destruct (C11_outer_sectors KDM n name si dm Hn R) as (O1 & _).
  unfold states, L. cbn [ly_statesdm lay_of]. now rewrite O1.
Qed.
Lemma same_pauli : forall pf b bp c, (0 <= c < Z.of_nat (ly_ncharge L))%Z -> c_pauli_coupling K L nl pf b bp c = pauli_coupling K L nl pf b bp c.
Proof. intros. unfold c_pauli_coupling, pauli_coupling. cbv zeta. now rewrite !cst by lia. Qed.
Lemma same_lindblad : forall h tL b bp c, (0 <= c < Z.of_nat (ly_ncharge L))%Z -> c_lindblad_coupling K L nl h tL b bp c = lindblad_coupling K L nl h tL b bp c.
Proof. intros. unfold c_lindblad_coupling, lindblad_coupling. cbv zeta. now rewrite !cst by lia. Qed.
Lemma same_vn1 : forall T F b bp c, (0 <= c < Z.of_nat (ly_ncharge L))%Z -> c_vn1_coupling K L nl T F b bp c = vn1_coupling K L nl T F b bp c.
Proof. intros. unfold c_vn1_coupling, vn1_coupling. cbv zeta. now rewrite !cst by lia. Qed.
Lemma same_red : forall T F b bp c, (0 <= c < Z.of_nat (ly_ncharge L))%Z -> c_red_coupling K L nl T F b bp c = red_coupling K L nl T F b bp c.
Proof. intros. unfold c_red_coupling, red_coupling. cbv zeta. now rewrite !cst by lia. Qed.

Lemma flat_map_ext_in : forall A B (f g : A -> list B) l, (forall x, In x l -> f x = g x) -> flat_map f l = flat_map g l.
Proof. intros A B f g l H. rewrite !flat_map_concat_map. f_equal. now apply map_ext_in. Qed.
Lemma tgL : tagged KDM dm. Proof. exact (fit_tagged _ _ _ _ _ FT). Qed.
(** the Python loop visits the elements of all_bbp in the same order *)
Lemma python_order : forall E cpl ccpl, (forall b bp c, (0 <= c < Z.of_nat (ly_ncharge L))%Z -> ccpl b bp c = cpl b bp c) ->
  generate_kern K L E cpl = flat_map (c_iter K E ccpl) (unique_rows false true L).
Proof.
  intros E cpl ccpl SM. unfold generate_kern, charges, unique_rows. rewrite flat_map_map, flat_map_flat. apply flat_map_ext_in. intros c Hc. apply in_seq in Hc.
  rewrite flat_map_flat. rewrite states_nth by lia. rewrite Nat2Z.id. unfold pairs_of. cbn iota. apply flat_map_ext_in. intros [b bp] Hp. cbn [fst snd].
  unfold is_unique. destruct (uniq L b bp (Z.of_nat c)) eqn:U; [|now rewrite andb_false_r].
  cbn [flat_map c_iter]. rewrite app_nil_r, SM by lia. change (nth c (ly_statesdm L) []) with (considered dm c) in Hp.
  assert (HB : In b (considered dm c) /\ In bp (considered dm c)).
  { apply combinations_wr_in in Hp. destruct Hp as [[-> H]|H]; auto. apply combinations2_in in H; [tauto|apply (tg_nodup _ _ tgL)]. }
  destruct (num_cases KDM dm tgL ltac:(discriminate) (b, bp, c)) as (NB & _); [cbn; tauto|]. cbn [r_num] in NB. fold L in NB.
  unfold is_included. destruct (Z.eqb_spec (ind0 L b bp (Z.of_nat c)) (-1)); [lia|]. reflexivity.
Qed.

Ltac aim := intros b bp q x _ c Hx; cbv zeta in Hx; repeat first
  [ apply in_app_or in Hx; destruct Hx as [Hx|Hx]
  | apply in_flat_map in Hx; let y := fresh in destruct Hx as (y & _ & Hx); try destruct y
  | match type of Hx with context [if ?y then _ else _] => destruct y end
  | destruct Hx as [<-|Hx] | destruct Hx ]; auto.
Lemma wi_lindblad : forall l h tL, writes_itself L l (c_lindblad_coupling K L nl h tL).
Proof. intros l h tL. unfold c_lindblad_coupling. aim. Qed.
Lemma wi_vn1 : forall l T F, writes_itself L l (c_vn1_coupling K L nl T F).
Proof. intros l T F. unfold c_vn1_coupling. aim. Qed.
Lemma wi_red : forall l T F, writes_itself L l (c_red_coupling K L nl T F).
Proof. intros l T F. unfold c_red_coupling. aim. Qed.

Theorem C65_kernel :
  exists l, set_all_bbp false true L = Some l /\ forall E,
    (forall h tL sched, let m := run_sched eqZZ (@radd K) sched (start (kern_progs K L E (c_lindblad_coupling K L nl h tL) l) zeros) in
       finished m -> forall i, mem m i = kern_of K L (lindblad_calls K L nl h tL E) i) /\
    (forall T F sched, let m := run_sched eqZZ (@radd K) sched (start (kern_progs K L E (c_vn1_coupling K L nl T F) l) zeros) in
       finished m -> forall i, mem m i = kern_of K L (vn1_calls K L nl T F E) i) /\
    (forall T F sched, let m := run_sched eqZZ (@radd K) sched (start (kern_progs K L E (c_red_coupling K L nl T F) l) zeros) in
       finished m -> forall i, mem m i = kern_of K L (red_calls K L nl T F E) i).
Proof.
  destruct (C65_elements KDM n name si dm FT) as (l & SB & _). cbn [no_conjugates] in SB. fold L in SB. exists l. split; auto. intros E.
  assert (EQ : l = unique_rows false true L).
  { pose proof (all_bbp_fills KDM dm tgL ltac:(discriminate)) as A. cbn [no_conj_of] in A. fold L in A. congruence. }
  assert (LS : forall r, In r l -> listed dm r).
  { intros [[b bp] c] H. rewrite EQ in H. apply (rows_in KDM dm tgL ltac:(discriminate)) in H. exact H. }
  assert (AM : forall ccpl, writes_itself L l ccpl -> forall r, In r l -> aimed K dm ccpl r) by (intros ccpl WI [[b bp] c] H x Hx; exact (WI b bp c x H Hx)).
  assert (GEN : forall cpl ccpl, (forall b bp c, (0 <= c < Z.of_nat (ly_ncharge L))%Z -> ccpl b bp c = cpl b bp c) -> writes_itself L l ccpl ->
    forall sched, let m := run_sched eqZZ (@radd K) sched (start (kern_progs K L E ccpl l) zeros) in
    finished m -> forall i, mem m i = kern_of K L (generate_kern K L E cpl) i).
  { intros cpl ccpl SM WI sched m F i. destruct (C65_parallel KDM n name si dm false l E ccpl FT SB WI) as (P & _).
    unfold m. rewrite P by exact F. pose proof (kern_concat K KDM dm tgL ltac:(discriminate) E ccpl l LS (AM ccpl WI)) as KC. fold L in KC |- *. rewrite KC.
    rewrite EQ, <- (python_order E cpl ccpl SM). reflexivity. }
  split; [|split]; intros.
  - apply GEN; auto using same_lindblad, wi_lindblad.
  - apply GEN; auto using same_vn1, wi_vn1.
  - apply GEN; auto using same_red, wi_red.
Qed.

Theorem C65_kernel_pauli :
  exists l, set_all_bbp true true L = Some l /\ forall E pf sched,
    let m := run_sched eqZZ (@radd K) sched (start (kern_progs K L E (c_pauli_coupling K L nl pf) l) zeros) in
    finished m -> forall i, mem m i = kern_of K L (pauli_calls K L nl pf) i.
Proof.
  destruct (C65_diagonal KDM n name si dm true FT) as (l & SB & _ & _ & M & _). fold L in SB. exists l. split; auto. intros E pf sched m F i.
  assert (EQ : l = unique_rows true true L).
  { pose proof (all_bb_fills KDM dm tgL ltac:(discriminate) true) as A. fold L in A. congruence. }
  assert (DI : forall b bp c, In (b, bp, c) l -> b = bp /\ In b (considered dm c) /\ uniq L b bp (Z.of_nat c) = true).
  { intros b bp c H. apply M in H. destruct H as (-> & A & B). repeat split; auto. apply (bool_uniq KDM dm); auto using tgL. discriminate. }
  assert (LS : forall r, In r l -> listed dm r).
  { intros [[b bp] c] H. apply DI in H. destruct H as (-> & A & B). cbn. auto. }
  assert (WI : writes_itself L l (c_pauli_coupling K L nl pf)).
  { intros b bp q x H c Hx. apply DI in H. destruct H as (-> & _). unfold c_pauli_coupling in Hx. cbv zeta in Hx.
    apply in_app_or in Hx. destruct Hx as [Hx|Hx]; apply in_map_iff in Hx; destruct Hx as (y & <- & _); reflexivity. }
  assert (AM : forall r, In r l -> aimed K dm (c_pauli_coupling K L nl pf) r) by (intros [[b bp] c] H x Hx; exact (WI b bp c x H Hx)).
  destruct (C65_parallel KDM n name si dm true l E (c_pauli_coupling K L nl pf) FT SB WI) as (P & _).
  unfold m. rewrite P by exact F. pose proof (kern_concat K KDM dm tgL ltac:(discriminate) E _ l LS AM) as KC. fold L in KC |- *. rewrite KC.
  unfold kern_of, pauli_calls.
  replace (flat_map (kh_updates K L) (flat_map (c_iter K E (c_pauli_coupling K L nl pf)) l))
     with (flat_map (kh_updates K L) (generate_kern_pauli K L (pauli_coupling K L nl pf))); [reflexivity|].
  assert (X : flat_map (kh_updates K L) (flat_map (c_iter K E (c_pauli_coupling K L nl pf)) l) =
              flat_map (kh_updates K L) (flat_map (fun r => let '(b, bp, c) := r in pauli_coupling K L nl pf b b (Z.of_nat c)) l)).
  { rewrite !flat_map_flat. apply flat_map_ext_in. intros [[b bp] c] H. pose proof (DI _ _ _ H) as (-> & Hb & U). cbn [c_iter flat_map].
    destruct (num_cases KDM dm tgL ltac:(discriminate) _ (LS _ H)) as (_ & HI & _). cbn [r_num r_off] in HI. fold L in HI. rewrite Nat.eqb_refl in HI. cbn [negb] in HI.
    cbn [kh_updates]. rewrite HI. cbn [app]. f_equal. apply same_pauli. pose proof (tg_range _ _ tgL _ _ Hb). unfold L. cbn [ly_ncharge lay_of]. lia. }
  rewrite X, EQ. f_equal. unfold generate_kern_pauli, unique_rows, charges. rewrite flat_map_map, flat_map_flat. apply flat_map_ext_in. intros c Hc.
  rewrite flat_map_flat, states_nth by lia. rewrite Nat2Z.id. unfold pairs_of. rewrite flat_map_map. apply flat_map_ext_in. intros b Hb. cbn [fst snd].
  unfold is_unique. destruct (uniq L b b (Z.of_nat c)); cbn [flat_map]; [now rewrite app_nil_r|reflexivity].
Qed.
Theorem C65_vector :
  exists l, set_all_bbp false true L = Some l /\ forall phi E,
    (forall h tL sched, let m := run_sched Z.eq_dec (@radd K) sched (start (vec_progs K L phi E (c_lindblad_coupling K L nl h tL) l) zeros) in
       finished m -> forall i, mem m i = dphi_of K L phi (lindblad_calls K L nl h tL E) i) /\
    (forall T F sched, let m := run_sched Z.eq_dec (@radd K) sched (start (vec_progs K L phi E (c_vn1_coupling K L nl T F) l) zeros) in
       finished m -> forall i, mem m i = dphi_of K L phi (vn1_calls K L nl T F E) i) /\
    (forall T F sched, let m := run_sched Z.eq_dec (@radd K) sched (start (vec_progs K L phi E (c_red_coupling K L nl T F) l) zeros) in
       finished m -> forall i, mem m i = dphi_of K L phi (red_calls K L nl T F E) i).
Proof.
  destruct (C65_elements KDM n name si dm FT) as (l & SB & _). cbn [no_conjugates] in SB. fold L in SB. exists l. split; auto. intros phi E.
  assert (EQ : l = unique_rows false true L).
  { pose proof (all_bbp_fills KDM dm tgL ltac:(discriminate)) as A. cbn [no_conj_of] in A. fold L in A. congruence. }
  assert (GEN : forall cpl ccpl, (forall b bp c, (0 <= c < Z.of_nat (ly_ncharge L))%Z -> ccpl b bp c = cpl b bp c) -> writes_itself L l ccpl ->
    forall sched, let m := run_sched Z.eq_dec (@radd K) sched (start (vec_progs K L phi E ccpl l) zeros) in
    finished m -> forall i, mem m i = dphi_of K L phi (generate_kern K L E cpl) i).
  { intros cpl ccpl SM WI sched m F i. destruct (C65_parallel KDM n name si dm false l E ccpl FT SB WI) as (_ & P & _).
    unfold m. rewrite P by exact F. pose proof (vec_concat K dm E ccpl l phi) as KC. fold L in KC |- *. rewrite KC.
    rewrite EQ, <- (python_order E cpl ccpl SM). reflexivity. }
  split; [|split]; intros.
  - apply GEN; auto using same_lindblad, wi_lindblad.
  - apply GEN; auto using same_vn1, wi_vn1.
  - apply GEN; auto using same_red, wi_red.
Qed.
End Same.
End Loop.
Print Assumptions C65_parallel.
Print Assumptions C65_kernel.
Print Assumptions C65_kernel_pauli.
Print Assumptions C65_vector.

(** *** After remove_coherences the compiled handler writes outside its array *)
(** remove_coherences lowers ndm0 but leaves booldm0 as it is; set_all_bbp asks booldm0 only, so whenever anything was
    removed it has more rows to write than all_bbp has (the Python loop asks is_included as well). *)
Theorem C65_removed : forall n name si dm far L', fit KDM n name si dm ->
  remove_coherences far (lay_of dm) = Some L' -> ly_ndm0 L' < dm_ndm0 dm -> set_all_bbp false true L' = None.
Proof.
  intros n name si dm far L' FT RM LT. pose proof (fit_tagged _ _ _ _ _ FT) as TG.
  assert (KD : KDM <> KPauli) by discriminate.
  pose proof (read_ok KDM dm TG KD) as RO. pose proof (rows_perm KDM dm TG KD) as PM. pose proof (numbered_length KDM dm TG) as NL. cbn [no_conj_of] in PM.
  unfold remove_coherences in RM. destruct (scan far (lay_of dm) (seq 0 (ly_ndm0_ (lay_of dm)))) as [es|]; [|discriminate].
  destruct (relabel _ _ _) as [es' cnt]. injection RM as <-.
  apply set_all_bbp_over; [exact RO|]. unfold nelements.
  match goal with |- _ < length (unique_rows _ _ ?M) => change (unique_rows false true M) with (unique_rows false true (lay_of dm)) end.
  rewrite <- (Permutation_length PM), NL. exact LT.
Qed.
Print Assumptions C65_removed.
(** three levels, the energies of C40_case: 12 elements remain of 14.  The compiled handler needs 14 rows.  The 12 that
    lie inside the array hold the two removed elements and lack the populations with numbers 6 and 7 *)
Theorem C65_removed_refuted : exists L, remove_coherences (qfar two_E 3) two_L = Some L /\
  ly_ndm0 L = 12 /\ set_all_bbp false true L = None /\
  length (unique_rows false true L) = 14 /\
  In (1, 2, 1) (firstn 12 (unique_rows false true L)) /\ ind0 L 1 2 1 = (-1)%Z /\
  skipn 12 (unique_rows false true L) = [(6, 6, 2); (7, 7, 3)] /\ map (fun r => let '(b, bp, c) := r in ind0 L b bp (Z.of_nat c)) [(6, 6, 2); (7, 7, 3)] = [6; 7]%Z /\
  filter (fun p => is_included L (fst p) (snd p) 1 && is_unique L (fst p) (snd p) 1)%bool (combinations_wr (states L 1)) = [(1, 1); (2, 2); (2, 3); (3, 3)].
Proof.
  destruct (remove_coherences (qfar two_E 3) two_L) as [L1|] eqn:E1; [|vm_compute in E1; discriminate].
  vm_compute in E1. injection E1 as <-. eexists. split; [reflexivity|]. vm_compute. repeat split; auto.
Qed.
Print Assumptions C65_removed_refuted.

(** ** Examples *)
(** all systems of two levels, four levels with 'ssq', without further calls, meet the hypotheses *)
Example C65_fit : fit KDM 2 "charge" (fst (call_init KDM 2 "charge")) (snd (call_init KDM 2 "charge")) /\
  fit KDM 4 "ssq" (fst (call_init KDM 4 "ssq")) (snd (call_init KDM 4 "ssq")) /\
  fit KDMc 2 "charge" (fst (call_init KDMc 2 "charge")) (snd (call_init KDMc 2 "charge")).
Proof.
  assert (R : forall kd n name, reach kd n name (fst (call_init kd n name)) (snd (call_init kd n name))).
  { intros kd n name. apply reach_init. apply surjective_pairing. }
  assert (G : forall kd n name, 1 <= n -> kd <> KPauli -> (ix_of name n = IxSsq -> whole_multiplets (fst (call_init kd n name)) (snd (call_init kd n name))) ->
     fit kd n name (fst (call_init kd n name)) (snd (call_init kd n name))) by (intros kd n name A B D; split; [exact A|split; [exact B|split; [apply R|exact D]]]).
  assert (H1 : ix_of "charge" 2 <> IxSsq) by (vm_compute; discriminate).
  assert (P1 : 1 <= 2) by lia. assert (P2 : 1 <= 4) by lia. assert (KD : KDM <> KPauli) by discriminate. assert (KC : KDMc <> KPauli) by discriminate.
  split; [|split]; (apply G; [assumption|assumption|]).
  - intros X. contradiction.
  - intros _. apply (C48_all_states KDM 4 _ _ P2 eq_refl (surjective_pairing _)).
  - intros X. contradiction.
Qed.
Definition ck_L : Lay := lay_of (snd (call_init KDM 2 "charge")).
Example C65_rows : set_all_bbp false true ck_L = Some [(0, 0, 0); (1, 1, 1); (1, 2, 1); (2, 2, 1); (3, 3, 2)] /\
  set_all_bbp true true ck_L = Some [(0, 0, 0); (1, 1, 1); (2, 2, 1); (3, 3, 2)] /\
  set_all_bbp false false (lay_of (snd (call_init KDMc 2 "charge"))) = Some [(0, 0, 0); (1, 1, 1); (1, 2, 1); (2, 1, 1); (2, 2, 1); (3, 3, 2)] /\
  set_all_ba ck_L = Some [(1, 0, 0); (2, 0, 0); (3, 1, 1); (3, 2, 1)] /\
  option_map (@length row) (set_all_bbp false true (lay_of (snd (call_init KDM 4 "ssq")))) = Some (dm_ndm0 (snd (call_init KDM 4 "ssq"))).
Proof. vm_compute. repeat split; reflexivity. Qed.
(** a schedule that mixes the five iterations of the 1vN loop, on integers, against the Python kernel *)
Definition ck_T (l b a : nat) : Cx ZRing := mkC (Z.of_nat (l + b + a) : ZRing) (Z.of_nat b - Z.of_nat a : ZRing)%Z.
Definition ck_F (l k : nat) (q : bool) : Cx ZRing := mkC (Z.of_nat (l + 2 * k) : ZRing)%Z (if q then 1 else 3 : ZRing)%Z.
Definition ck_progs : list (list ((Z * Z) * ZRing)) :=
  kern_progs ZRing ck_L (fun b => Z.of_nat (5 * b * b) : ZRing) (c_vn1_coupling ZRing ck_L 2 ck_T ck_F) [(0, 0, 0); (1, 1, 1); (1, 2, 1); (2, 2, 1); (3, 3, 2)].
Definition ck_sched : list nat := concat (repeat [4; 2; 2; 0; 3; 1; 2; 3] 60).
Example C65_mixed : let m := run_sched eqZZ Z.add ck_sched (start ck_progs (fun _ => 0%Z)) in
  map (rest m) (seq 0 5) = [[]; []; []; []; []] /\
  map (fun i => mem m (4, Z.of_nat i))%Z (seq 0 6) = map (fun i => kern_of ZRing ck_L (vn1_calls ZRing ck_L 2 ck_T ck_F (fun b => Z.of_nat (5 * b * b))) (4, Z.of_nat i))%Z (seq 0 6) /\
  map (fun i => mem m (4, Z.of_nat i))%Z (seq 0 6) <> map (fun _ => 0%Z) (seq 0 6).
Proof. vm_compute. repeat split; try reflexivity. discriminate. Qed.
(** the model of the threads does lose updates when two iterations write to the same cell *)
Example C65_race : let ps := [[((0, 0)%Z, 1%Z)]; [((0, 0)%Z, 1%Z)]] in
  mem (run_sched eqZZ Z.add [0; 0; 1; 1] (start ps (fun _ => 0%Z))) (0, 0)%Z = 2%Z /\
  mem (run_sched eqZZ Z.add [0; 1; 0; 1] (start ps (fun _ => 0%Z))) (0, 0)%Z = 1%Z.
Proof. vm_compute. auto. Qed.
