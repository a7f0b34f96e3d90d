(** Property C50: phonon rates, their signs and their equilibrium (elph/pauli.py with specfunc_elph.py). *)
From Coq Require Import String List Arith Lia ZArith Bool Permutation Ring Reals Lra.
From Verif Require Import Base Bits Indexing IndexingProofs RemoveProofs Binom SsqProofs Qn
  PropIndexing DMIndex DMIndexProofs DMReach PropDMIndex CRing SpecFunc Layout Coherences Kernel KernelProofs
  PauliProofs CohProofs CohKernels CohCurrents PropKernel MasterEq PropMaster ElPh PropElPh Rates PropRates.
Import ListNotations.
Open Scope nat_scope.
Local Notation length := List.length.
Local Notation Cr := (Cx RRing).

(** ** The rate function *)
Section Func.
Open Scope R_scope.
Variables (dos : R -> R) (eps T omm omp : R).
Hypotheses (He : 0 < eps) (HT : 0 < T).
Local Notation g := (func_pauli_elph dos eps T omm omp).
Lemma bose_pos : forall x, 0 < x -> 0 < bose x.
Proof.
  intros x H. unfold bose. pose proof (exp_increasing 0 x H) as X. rewrite exp_0 in X.
  apply Rdiv_lt_0_compat; lra.
Qed.
Lemma bose_one : forall x, 0 < x -> 1 + bose x = exp x * bose x.
Proof. intros x H. unfold bose. pose proof (exp_increasing 0 x H) as X. rewrite exp_0 in X. field. lra. Qed.
Lemma within_pos : forall a, within (Rmax (omm / T) (9 / 10 * eps)) a (omp / T) = true -> 0 < a.
Proof. intros a H. apply within_true in H. pose proof (Rmax_r (omm / T) (9 / 10 * eps)). lra. Qed.
Lemma elph_nonneg : (forall x, 0 <= dos x) -> forall e, 0 <= g e.
Proof.
  intros D e. unfold func_pauli_elph. cbv zeta. pose proof PI_RGT_0 as PP. set (al := Rmax _ _ * _).
  destruct (within _ al _) eqn:A.
  - apply within_pos in A. pose proof (bose_pos al A). apply Rmult_le_pos; auto. nra.
  - destruct (within _ (- al) _) eqn:B; [|lra]. apply within_pos in B. pose proof (bose_pos (- al) B). apply Rmult_le_pos; auto. nra.
Qed.
(** emission over absorption is the Boltzmann factor, if the energy difference is resolved *)
Lemma elph_balance : forall e, 0 < e -> eps <= e / T -> g (- e) = exp (e / T) * g e.
Proof.
  intros e Hpos H. unfold func_pauli_elph. cbv zeta.
  assert (PX : 0 < e / T) by (apply Rdiv_lt_0_compat; auto).
  assert (A1 : Rmax (Rabs (e / T)) eps * (if Rle_dec 0 e then 1 else -1) = e / T).
  { rewrite Rabs_pos_eq by lra. rewrite Rmax_left by lra. destruct (Rle_dec 0 e); lra. }
  assert (A2 : Rmax (Rabs (- e / T)) eps * (if Rle_dec 0 (- e) then 1 else -1) = - (e / T)).
  { replace (- e / T) with (- (e / T)) by (field; lra). rewrite Rabs_Ropp, Rabs_pos_eq by lra. rewrite Rmax_left by lra.
    destruct (Rle_dec 0 (- e)); lra. }
  rewrite A1, A2, Ropp_involutive.
  assert (N1 : within (Rmax (omm / T) (9 / 10 * eps)) (- (e / T)) (omp / T) = false).
  { destruct (within _ _ _) eqn:B; auto. apply within_pos in B. lra. }
  rewrite N1. destruct (within _ (e / T) _) eqn:B; [|ring].
  rewrite bose_one by auto. replace (- T * - (e / T)) with (T * (e / T)) by ring. ring.
Qed.
(** below eps the factor is exp eps, whatever the difference *)
Lemma elph_unresolved : forall e, 0 < e -> e / T <= eps -> g (- e) = exp eps * g e.
Proof.
  intros e Hpos H. unfold func_pauli_elph. cbv zeta.
  assert (PX : 0 < e / T) by (apply Rdiv_lt_0_compat; auto).
  assert (A1 : Rmax (Rabs (e / T)) eps * (if Rle_dec 0 e then 1 else -1) = eps).
  { rewrite Rabs_pos_eq by lra. rewrite Rmax_right by lra. destruct (Rle_dec 0 e); lra. }
  assert (A2 : Rmax (Rabs (- e / T)) eps * (if Rle_dec 0 (- e) then 1 else -1) = - eps).
  { replace (- e / T) with (- (e / T)) by (field; lra). rewrite Rabs_Ropp, Rabs_pos_eq by lra. rewrite Rmax_right by lra.
    destruct (Rle_dec 0 (- e)); lra. }
  rewrite A1, A2, Ropp_involutive.
  assert (N1 : within (Rmax (omm / T) (9 / 10 * eps)) (- eps) (omp / T) = false).
  { destruct (within _ _ _) eqn:B; auto. apply within_pos in B. lra. }
  rewrite N1. destruct (within _ eps _) eqn:B; [|ring].
  rewrite bose_one by auto. replace (- T * - eps) with (T * eps) by ring. ring.
Qed.
End Func.

(** ** What the array entries are *)
Section Props.
Variables (n : nat) (name : string) (si : SI) (L L2 : Lay).
Hypotheses (Hn : (1 <= n)%nat) (Hix : ix_of name n <> IxSsq) (ES : elph_system n name si L L2).
Let SY : system n name si L := proj1 (elph_system_facts n name si L L2 Hn Hix ES).
Let LO : layout L := system_layout n name si L Hn Hix SY.
Let CH := system_charge n name si L Hn Hix SY.
Local Notation N := (charge_of si).
Local Notation SS := (cons_states L).
Local Notation act := (act RRing).
Add Ring RrPH : (rth RRing).

(** si_elph numbers the ordered pairs of states, one number each *)
Lemma elph_pairs : (forall c, (0 <= c)%Z -> states L2 c = states L c) /\ ly_ncharge L2 = ly_ncharge L /\
  (forall s t c, (0 <= c)%Z -> In s (states L c) -> In t (states L c) -> s <> t ->
     uniq L2 s t c = negb (out (ind0 L2 s t c))) /\
  (forall s t c s' t' c', (0 <= c)%Z -> (0 <= c')%Z -> In s (states L c) -> In t (states L c) -> In s' (states L c') -> In t' (states L c') ->
     ind0 L2 s t c = ind0 L2 s' t' c' -> out (ind0 L2 s t c) = false -> s = s' /\ t = t').
Proof.
  assert (X : exists dm si2 dm2, elph n name si dm si2 dm2 /\ L2 = lay_of dm2 /\ ly_ncharge L = ly_ncharge (lay_of dm) /\
    (forall c, (0 <= c)%Z -> states L c = states (lay_of dm) c)).
  { destruct ES as [dm si2 dm2 H|dm si2 dm2 E dE L' H Hp HE RM].
    - exists dm, si2, dm2. auto.
    - exists dm, si2, dm2. destruct (elph_facts _ _ _ _ _ _ Hn Hix H) as (R1 & _).
      pose proof (rm_fields (qfar E dE) (qfar_sym E dE) (fun b => qfar_diag E dE b HE) (lay_of dm)
        (layout_reach _ _ _ _ Hn Hix R1) (fresh_reach _ _ _ _ Hn Hix R1) Hp L' RM) as RF.
      split; auto. split; auto. destruct RF as (A & B & C & D & F & ST & _). split; auto. }
  destruct X as (dm & si2 & dm2 & H & -> & NC & ST).
  destruct (elph_facts _ _ _ _ _ _ Hn Hix H) as (R1 & R2 & W & CE).
  assert (KD : dm_kind dm2 = KDMc /\ dm_ncharge dm2 = n + 1).
  { apply reach_reached in R2; auto. destruct (rc_make _ _ _ _ _ R2) as (qn & qi & d0 & lst & E & _).
    pose proof (dm_fields KDMc (ix_of name n) qn qi (n + 1) d0 (lst ++ [[]])) as F. rewrite <- E in F. tauto. }
  destruct (reach_kind n name si dm Hn R1) as (_ & NC1).
  assert (SA : forall b bp k, slot_at (lay_of dm2) b bp (Z.of_nat k) = dm0_slot dm2 b bp k).
  { intros. unfold slot_at, dm0_slot. rewrite (proj1 KD). simpl. now rewrite Nat2Z.id. }
  assert (IN : forall b bp k q, get_ind_dm0 dm2 b bp k = Some q -> ind0 (lay_of dm2) b bp (Z.of_nat k) = q).
  { intros b bp k q G. unfold ind0. rewrite SA. now apply nth_of_error. }
  assert (BO : forall b bp k q, get_bool_dm0 dm2 b bp k = Some q -> uniq (lay_of dm2) b bp (Z.of_nat k) = q).
  { intros b bp k q G. unfold uniq. rewrite SA. now apply nth_of_error. }
  assert (SQ : forall c, (0 <= c)%Z -> states (lay_of dm2) c = states L c).
  { intros c Hc. rewrite ST by auto. destruct (zc c Hc) as (k & ->). rewrite !states_nat. apply CE. }
  destruct (C08_numbering_dmc n name si2 dm2 Hn Hix R2) as (M1 & M2 & M3 & M4 & _).
  split; [exact SQ|]. split; [rewrite NC; change (dm_ncharge dm2 = dm_ncharge dm); rewrite NC1; tauto|].
  split.
  - intros s t c Hc Hs Ht Hne. rewrite <- SQ in Hs, Ht by auto. destruct (zc c Hc) as (k & ->). rewrite states_nat in Hs, Ht.
    destruct (coherent_dec si2 s t) as [CC|CC].
    + destruct (M2 s t k Hs Ht Hne CC) as (q & _ & A & B & _). rewrite (IN _ _ _ _ A), (BO _ _ _ _ B). symmetry. apply negb_true_iff, Z.eqb_neq. lia.
    + destruct (M3 s t k Hs Ht Hne CC) as (A & B). now rewrite (IN _ _ _ _ A), (BO _ _ _ _ B).
  - intros s t c s' t' c' Hc Hc' Hs Ht Hs' Ht' EQ OUT. rewrite <- SQ in Hs, Ht, Hs', Ht' by auto.
    destruct (zc c Hc) as (k & ->). destruct (zc c' Hc') as (k' & ->). rewrite states_nat in Hs, Ht, Hs', Ht'.
    assert (G : forall b bp q, In b (considered dm2 q) -> In bp (considered dm2 q) -> exists z, get_ind_dm0 dm2 b bp q = Some z).
    { intros b bp q Hb Hbp. destruct (Nat.eq_dec b bp) as [<-|Hne].
      - destruct (M1 b q Hb) as (z & _ & A & _). eauto.
      - destruct (coherent_dec si2 b bp) as [CC|CC].
        + destruct (M2 b bp q Hb Hbp Hne CC) as (z & _ & A & _). eauto.
        + destruct (M3 b bp q Hb Hbp Hne CC) as (A & _). eauto. }
    destruct (G s t k Hs Ht) as (z & A). destruct (G s' t' k' Hs' Ht') as (z' & A').
    rewrite (IN _ _ _ _ A) in EQ, OUT. rewrite (IN _ _ _ _ A') in EQ. subst z'.
    assert (NK : dm_kind dm2 <> KPauli) by (rewrite (proj1 KD); discriminate).
    destruct (M4 s t k s' t' k' z) as (_ & U & V); auto; unfold element; auto.
    + split; [auto|split; auto]. intros X. rewrite X in NK. contradiction.
    + split; [auto|split; auto]. intros X. rewrite X in NK. contradiction.
    + unfold out in OUT. apply Z.eqb_neq in OUT. auto.
Qed.
Variables (nb : nat) (V : nat -> nat -> nat -> Cr) (E tph omm omp : nat -> R) (dos : nat -> R -> R) (eps : R).
Local Notation wp := (ph_fct L2 nb V E tph omm omp dos eps).
Local Notation g l := (func_pauli_elph (dos l) eps (tph l) (omm l) (omp l)).
Open Scope R_scope.
Lemma ph_fct_val : forall l s t c, (0 <= c)%Z -> In s (states L c) -> In t (states L c) -> s <> t -> (l < nb)%nat ->
  out (ind0 L2 s t c) = false -> wp l (ind0 L2 s t c) = xph V l s t * g l (E s - E t).
Proof.
  intros l s t c Hc Hs Ht Hne Hl HO. destruct elph_pairs as (SQ & NC & UN & INJ). unfold ph_fct.
  assert (PE : forall q p, In q (charges L2) -> In p (permutations2 (states L2 q)) ->
     (0 <= q)%Z /\ In (fst p) (states L q) /\ In (snd p) (states L q) /\ fst p <> snd p).
  { intros q [b bp] Hq Hp. unfold permutations2 in Hp. apply filter_In in Hp. destruct Hp as (Hp & Hd). apply in_prod_iff in Hp.
    apply charges_in in Hq. rewrite SQ in Hp by lia. cbn [fst snd] in *. apply negb_true_iff, Nat.eqb_neq in Hd. repeat split; try tauto; lia. }
  apply run_writes_val.
  - intros u Hu Eu. apply in_flat_map in Hu. destruct Hu as (q & Hq & Hu). apply in_flat_map in Hu. destruct Hu as ([b bp] & Hp & Hu).
    destruct (PE q _ Hq Hp) as (Hq0 & Hb & Hbp & Hd). cbn [fst snd] in *.
    rewrite (UN b bp q) in Hu by auto. destruct (out (ind0 L2 b bp q)) eqn:OB; cbn [negb] in Hu; [destruct Hu|].
    cbv zeta in Hu. apply in_map_iff in Hu. destruct Hu as (l' & <- & _). cbn [fst snd] in *. injection Eu as -> EI.
    destruct (INJ b bp q s t c) as (-> & ->); auto.
  - right. eexists. split.
    + apply in_flat_map. exists c. split; [apply charges_in; rewrite NC; split; auto; apply (lo_range L LO c s); auto|].
      apply in_flat_map. exists (s, t). split.
      * unfold permutations2. apply filter_In. rewrite SQ by auto. split; [now apply in_prod|]. cbn [fst snd]. apply negb_true_iff, Nat.eqb_neq. auto.
      * rewrite (UN s t c) by auto. rewrite HO. cbn [negb]. cbv zeta. apply in_map_iff. exists l. split; [reflexivity|]. unfold leads. apply in_seq. lia.
    + reflexivity.
Qed.
(** the pair of states is connected by the phonon terms *)
Definition connected (s t : nat) (c : Z) : Prop := In s (states L c) /\ In t (states L c) /\ s <> t /\ coherent si s t.
(** golden-rule rate of t -> s at bath l *)
Definition ph_rate (l s t : nat) : R := xph V l s t * g l (E s - E t).
Lemma connected_out : forall s t c, (0 <= c)%Z -> In s (states L c) -> In t (states L c) -> (out (ind0 L2 s t c) = false <-> coherent si s t).
Proof.
  intros s t c Hc Hs Ht. destruct ES as [dm si2 dm2 H|dm si2 dm2 E' dE L' H Hp HE RM].
  - apply (elph_kept _ _ _ _ _ _ Hn Hix H); auto.
  - apply (elph_kept _ _ _ _ _ _ Hn Hix H); auto; destruct (elph_facts _ _ _ _ _ _ Hn Hix H) as (R1 & _);
      pose proof (rm_fields (qfar E' dE) (qfar_sym E' dE) (fun b => qfar_diag E' dE b HE) (lay_of dm)
        (layout_reach _ _ _ _ Hn Hix R1) (fresh_reach _ _ _ _ Hn Hix R1) Hp L' RM) as (_ & _ & _ & _ & _ & ST & _); now rewrite <- ST.
Qed.
Lemma prate_val : forall l s t c, (0 <= c)%Z -> In s (states L c) -> In t (states L c) -> s <> t -> (l < nb)%nat ->
  (coherent si s t -> prate RRing L2 N wp l s t = ph_rate l s t) /\ (~ coherent si s t -> prate RRing L2 N wp l s t = 0).
Proof.
  intros l s t c Hc Hs Ht Hne Hl. rewrite (prate_at RRing L L2 N CH wp l s t c) by auto.
  pose proof (connected_out s t c Hc Hs Ht) as CO. destruct (out (ind0 L2 s t c)) eqn:O.
  - split; intros X; [|reflexivity]. apply CO in X. discriminate.
  - split; intros X; [now apply ph_fct_val|]. exfalso. apply X. now apply CO.
Qed.
Lemma xph_sym : forall l s t, xph V l s t = xph V l t s.
Proof. intros. unfold xph. f_equal. destruct (V l s t) as [a b], (V l t s) as [c d]. simpl. ring. Qed.
Lemma xph_nonneg : forall l s t, 0 <= xph V l s t.
Proof.
  intros. unfold xph. destruct (V l s t) as [a b], (V l t s) as [c d]. simpl.
  change (0 <= 1 / 2 * (a * a - b * - b + (c * c - - d * d))). nra.
Qed.

(** *** C50 *)
(** the kernel with phonons is the rate equation with the golden-rule rates of leads and baths *)
Variables (nl : nat) (T : nat -> nat -> nat -> Cr) (mu tl dm dp : nat -> R) (it : nat).
Local Notation pf := (pauli_fct L nl T E mu tl dm dp it).
Local Notation kern := (kern_of RRing L (elph_pauli_calls RRing L L2 nl nb pf wp)).
Local Notation GS := (proj1 (proj2 (elph_system_facts n name si L L2 Hn Hix ES))).
Definition ph_golden (l s t : nat) : R := if coherent_dec si s t then if Nat.eq_dec s t then 0 else ph_rate l s t else 0.
Lemma ph_terms : forall (p : nat -> R) l b c, (0 <= c)%Z -> In b (states L c) -> (l < nb)%nat ->
  rsum (fun a => prate RRing L2 N wp l b a * p a - prate RRing L2 N wp l a b * p b : RRing) (states L c) =
  rsum (fun a => ph_golden l b a * p a - ph_golden l a b * p b : RRing) (states L c).
Proof.
  intros p l b c Hc Hb Hl. apply (rsum_ext RRing). intros a Ha. unfold ph_golden.
  destruct (Nat.eq_dec b a) as [<-|Hne].
  - destruct (coherent_dec si b b); destruct (Nat.eq_dec b b); try congruence; rring.
  - destruct (prate_val l b a c Hc Hb Ha Hne Hl) as (A & A').
    destruct (prate_val l a b c Hc Ha Hb (not_eq_sym Hne) Hl) as (B & B').
    destruct (coherent_dec si b a) as [CC|CC]; destruct (coherent_dec si a b) as [CD|CD].
    + rewrite A, B by auto. destruct (Nat.eq_dec a b); [congruence|]. reflexivity.
    + exfalso. apply CD, coherent_sym, CC.
    + exfalso. apply CC, coherent_sym, CD.
    + rewrite A', B' by auto. rring.
Qed.
Theorem C50_rate_equation : forall phi b c, (0 <= c)%Z -> In b (states L c) ->
  act (ly_npauli L) kern phi (ind0 L b b c) =
  act (ly_npauli L) (kern_of RRing L (pauli_calls RRing L nl pf)) phi (ind0 L b b c) +
  rsum (fun l => rsum (fun a => ph_golden l b a * phi (ind0 L a a c) - ph_golden l a b * phi (ind0 L b b c) : RRing) (states L c)) (leads nb).
Proof.
  intros phi b c Hc Hb. rewrite (elph_pauli_row RRing n name si L L2 Hn Hix ES) by auto. 
  change (@radd RRing) with Rplus. f_equal. apply (rsum_ext RRing). intros l Hl. apply in_seq in Hl.
  refine (eq_trans _ (eq_trans (ph_terms (fun a => phi (ind0 L a a c)) l b c Hc Hb _) _)); try reflexivity. lia.
Qed.
Lemma ph_golden_nonneg : 0 < eps -> (forall l, (l < nb)%nat -> 0 < tph l) -> (forall l x, 0 <= dos l x) ->
  forall l s t, (l < nb)%nat -> 0 <= ph_golden l s t.
Proof.
  intros He Ht Hd l s t Hl. unfold ph_golden. destruct (coherent_dec _ _ _); [|lra]. destruct (Nat.eq_dec _ _); [lra|].
  unfold ph_rate. apply Rmult_le_pos; [apply xph_nonneg|]. apply elph_nonneg; auto.
Qed.
Theorem C50_signs : hermitian RRing T -> 0 < eps -> (forall l, (l < nb)%nat -> 0 < tph l) -> (forall l x, 0 <= dos l x) ->
  forall i j, (i < ly_npauli L)%nat -> (j < ly_npauli L)%nat ->
  (i <> j -> 0 <= kern (Z.of_nat i, Z.of_nat j)) /\ kern (Z.of_nat i, Z.of_nat i) <= 0.
Proof.
  intros HT He Ht Hd.
  pose proof (ph_golden_nonneg He Ht Hd) as PG.
  assert (U : forall i j, (i < ly_npauli L)%nat -> (j < ly_npauli L)%nat -> exists b c, (0 <= c)%Z /\ In b (states L c) /\ ind0 L b b c = Z.of_nat i /\
    kern (Z.of_nat i, Z.of_nat j) = kern_of RRing L (pauli_calls RRing L nl pf) (Z.of_nat i, Z.of_nat j) +
    rsum (fun l => rsum (fun a => ph_golden l b a * unit_vec RRing (Z.of_nat j) (ind0 L a a c) - ph_golden l a b * unit_vec RRing (Z.of_nat j) (Z.of_nat i) : RRing) (states L c)) (leads nb)).
  { intros i j Hi Hj. destruct (lo_surj L LO i Hi) as (b & c & Hc & Hb & Eb). exists b, c. split; auto. split; auto. split; auto.
    rewrite <- (act_unit RRing (ly_npauli L) kern) by auto. rewrite <- (act_unit RRing (ly_npauli L) (kern_of RRing L (pauli_calls RRing L nl pf))) by auto.
    rewrite <- Eb. now rewrite C50_rate_equation by auto. }
  assert (UV : forall k j, 0 <= unit_vec RRing j k /\ (j <> k -> unit_vec RRing j k = 0)).
  { intros k j. unfold unit_vec. destruct (Z.eq_dec _ _); split; try (intros; congruence); try (simpl; lra); auto. }
  intros i j Hi Hj. destruct (C26_signs n name si L Hn Hix SY nl T E mu tl dm dp it HT i j Hi Hj) as (S1 & S2). split.
  - intros Hne. destruct (U i j Hi Hj) as (b & c & Hc & Hb & Eb & ->). specialize (S1 Hne).
    apply Rplus_le_le_0_compat; auto. apply rsum_nonneg. intros l Hl. apply in_seq in Hl. apply rsum_nonneg. intros a Ha.
    rewrite (proj2 (UV (Z.of_nat i) (Z.of_nat j))) by lia. rewrite Rmult_0_r, Rminus_0_r.
    apply Rmult_le_pos; [apply PG; lia|apply UV].
  - destruct (U i i Hi Hi) as (b & c & Hc & Hb & Eb & ->).
    assert (X : 0 <= rsum (fun l => - rsum (fun a => ph_golden l b a * unit_vec RRing (Z.of_nat i) (ind0 L a a c) - ph_golden l a b * unit_vec RRing (Z.of_nat i) (Z.of_nat i) : RRing) (states L c) : RRing) (leads nb)).
    { apply rsum_nonneg. intros l Hl. apply in_seq in Hl. rewrite <- (rsum_opp RRing). apply rsum_nonneg. intros a Ha.
      change (@ropp RRing) with Ropp. destruct (Nat.eq_dec a b) as [->|Hne].
      - rewrite Eb. lra.
      - assert (X : ind0 L a a c <> Z.of_nat i).
        { intros X. rewrite <- Eb in X. destruct (lo_diag L LO a c Hc Ha) as (RA & _).
          destruct (lo_inj L LO a a c b b c) as (_ & [[-> _]|[-> _]]); auto. lia. }
        rewrite (proj2 (UV (ind0 L a a c) (Z.of_nat i))) by auto. rewrite Rmult_0_r.
        pose proof (PG l a b ltac:(lia)). pose proof (proj1 (UV (Z.of_nat i) (Z.of_nat i))).
        assert (0 <= ph_golden l a b * unit_vec RRing (Z.of_nat i) (Z.of_nat i)) by (apply Rmult_le_pos; auto). lra. }
    rewrite (rsum_opp RRing) in X. change (@ropp RRing) with Ropp in X. lra.
Qed.

(** energy differences of the connected pairs are zero or at least eps kT *)
Definition resolved (th : R) : Prop := forall s t c, (0 <= c)%Z -> connected s t c -> E s < E t -> eps <= (E t - E s) / th.
Theorem C50_equilibrium : forall z m th phi, 0 <= z -> 0 < th -> 0 < eps ->
  gibbs L E z m th phi -> equilibrium nl mu tl m th -> guarded L E m th ->
  (forall l, (l < nb)%nat -> tph l = th) -> resolved th ->
  stationary RRing (ly_npauli L) kern phi.
Proof.
  intros z m th phi Hz Hth He G EQ GU TB RS i Hi. destruct (lo_surj L LO i Hi) as (b & c & Hc & Hb & <-).
  destruct (C25_equilibrium n name si L Hn Hix SY nl T E mu tl dm dp it z m th phi Hz (Rgt_not_eq _ _ Hth) G EQ GU) as (ST & _).
  rewrite C50_rate_equation by auto.
  destruct (lo_diag L LO b c Hc Hb) as (RB & _).
  assert (act (ly_npauli L) (kern_of RRing L (pauli_calls RRing L nl pf)) phi (ind0 L b b c) = 0) as ->.
  { replace (ind0 L b b c) with (Z.of_nat (Z.to_nat (ind0 L b b c))) by lia. apply ST. lia. }
  rewrite (rsum_0 RRing); [rring|]. intros l Hl. apply in_seq in Hl. apply (rsum_0 RRing). intros a Ha.
  rewrite (G c a), (G c b) by auto. unfold ph_golden.
  destruct (coherent_dec si b a) as [CC|CC]; destruct (coherent_dec si a b) as [CD|CD];
    [|exfalso; apply CD, coherent_sym, CC|exfalso; apply CC, coherent_sym, CD|rring].
  destruct (Nat.eq_dec b a) as [->|Hne]; [destruct (Nat.eq_dec a a); [rring|congruence]|].
  destruct (Nat.eq_dec a b) as [|_]; [congruence|]. unfold ph_rate. rewrite (xph_sym l a b).
  assert (TL : tph l = th) by (apply TB; lia).
  assert (KEY : forall s t, connected s t c -> E s < E t ->
     g l (E t - E s) * exp (- ((E s - m * IZR c) / th)) = g l (E s - E t) * exp (- ((E t - m * IZR c) / th))).
  { intros s t CN LT. pose proof (RS s t c Hc CN LT) as R. replace (E s - E t) with (- (E t - E s)) by ring.
    rewrite elph_balance; auto; try (rewrite TL; auto); try lra.
    replace (exp (- ((E s - m * IZR c) / th))) with (exp ((E t - E s) / th) * exp (- ((E t - m * IZR c) / th))); [ring|].
    rewrite <- exp_plus. f_equal. field. lra. }
  assert (CB : connected b a c) by (repeat split; auto). assert (CA : connected a b c) by (repeat split; auto).
  destruct (Rtotal_order (E b) (E a)) as [LT|[EE|GT]].
  - pose proof (KEY b a CB LT) as X. change (@r0 RRing) with 0.
    replace (xph V l b a * g l (E b - E a) * (z * exp (- ((E a - m * IZR c) / th)))) with (xph V l b a * z * (g l (E b - E a) * exp (- ((E a - m * IZR c) / th)))) by ring.
    rewrite <- X. rring.
  - rewrite EE. change (@r0 RRing) with 0. rring.
  - pose proof (KEY a b CA GT) as X. change (@r0 RRing) with 0.
    replace (xph V l b a * g l (E b - E a) * (z * exp (- ((E a - m * IZR c) / th)))) with (xph V l b a * z * (g l (E b - E a) * exp (- ((E a - m * IZR c) / th)))) by ring.
    rewrite X. rring.
Qed.
End Props.

(** *** Examples: two levels, 'charge' indexing; the states 1 and 2 are connected by the phonons *)
Open Scope R_scope.
Definition rz_V (l a b : nat) : Cr := @mkC RRing 1 0.
Definition rz_eps : R := 1 / 1000000.
Lemma rz_coherent : forall s t, coherent ex_si s t.
Proof. intros s t H. vm_compute in H. discriminate. Qed.
Lemma rz_connected : forall s t c, (0 <= c)%Z -> connected ex_si ex_L s t c -> c = 1%Z /\ ((s = 1 /\ t = 2) \/ (s = 2 /\ t = 1))%nat.
Proof.
  intros s t c Hc (Hs & Ht & Hne & _). apply ry_states in Hs; auto. apply ry_states in Ht; auto. lia.
Qed.
Definition rz_wp (E : nat -> R) : nat -> Z -> R :=
  ph_fct ex_L2 1 rz_V E (fun _ => 1/2) (fun _ => 0) (fun _ => 50) (fun _ _ => 1) rz_eps.
Example C50_case : exists z phi,
  let pf := pauli_fct ex_L 2 ry_T ry_E (fun _ => 2) (fun _ => 1/2) (fun _ => -100) (fun _ => 5/2) 2 in
  0 < z /\ gibbs ex_L ry_E z 2 (1/2) phi /\ resolved ex_si ex_L ry_E rz_eps (1/2) /\
  stationary RRing 4 (kern_of RRing ex_L (elph_pauli_calls RRing ex_L ex_L2 2 1 pf (rz_wp ry_E))) phi /\
  0 < rz_wp ry_E 0 (ind0 ex_L2 2 1 1) < rz_wp ry_E 0 (ind0 ex_L2 1 2 1).
Proof.
  destruct C25_case as (z & phi & Hz & G & EQ & GU & _). exists z, phi. intros pf. split; auto. split; auto.
  assert (RS : resolved ex_si ex_L ry_E rz_eps (1/2)).
  { intros s t c Hc CN LT. destruct (rz_connected s t c Hc CN) as (_ & [(-> & ->)|(-> & ->)]); simpl in *; unfold rz_eps; lra. }
  split; auto. assert (H2 : (1 <= 2)%nat) by lia. assert (Hix : ix_of "charge" 2 <> IxSsq) by discriminate.
  assert (EP : 0 < rz_eps) by (unfold rz_eps; lra).
  split.
  - apply (C50_equilibrium 2 "charge" ex_si ex_L ex_L2 H2 Hix C30_system 1 rz_V ry_E (fun _ => 1/2) (fun _ => 0) (fun _ => 50) (fun _ _ => 1) rz_eps
      2 ry_T (fun _ => 2) (fun _ => 1/2) (fun _ => -100) (fun _ => 5/2) 2 z 2 (1/2) phi); auto; lra.
  - assert (V : forall s t, s <> t -> In s [1; 2]%nat -> In t [1; 2]%nat ->
      rz_wp ry_E 0 (ind0 ex_L2 s t 1) = func_pauli_elph (fun _ => 1) rz_eps (1/2) 0 50 (ry_E s - ry_E t)).
    { intros s t Hne Hs Ht. unfold rz_wp. rewrite (ph_fct_val 2 "charge" ex_si ex_L ex_L2 H2 Hix C30_system); auto; try lia.
      - unfold xph, rz_V. simpl. rsimp. match goal with |- @eq _ ?u ?v => change (@eq R u v) end. lra.
      - apply (connected_out 2 "charge" ex_si ex_L ex_L2 H2 Hix C30_system); auto; try lia. apply rz_coherent. }
    rewrite !V by (simpl; auto).
    replace (ry_E 1 - ry_E 2) with (- (ry_E 2 - ry_E 1)) by ring.
    rewrite elph_balance by (simpl; unfold rz_eps; lra).
    assert (P : 0 < func_pauli_elph (fun _ => 1) rz_eps (1/2) 0 50 (ry_E 2 - ry_E 1)).
    { unfold func_pauli_elph. cbv zeta. change (ry_E 2 - ry_E 1) with (3 - 1).
      assert (Rmax (Rabs ((3 - 1) / (1 / 2))) rz_eps * (if Rle_dec 0 (3 - 1) then 1 else -1) = 4) as ->.
      { rewrite Rabs_pos_eq by lra. rewrite Rmax_left by (unfold rz_eps; lra). destruct (Rle_dec 0 (3 - 1)); lra. }
      assert (within (Rmax (0 / (1 / 2)) (9 / 10 * rz_eps)) 4 (50 / (1 / 2)) = true) as ->.
      { apply within_true. rewrite Rmax_right by (unfold rz_eps; lra). unfold rz_eps. lra. }
      pose proof (bose_pos 4 ltac:(lra)). pose proof PI_RGT_0. nra. }
    split; auto. pose proof (exp_increasing 0 ((ry_E 2 - ry_E 1) / (1 / 2)) ltac:(simpl; lra)) as X. rewrite exp_0 in X. nra.
Qed.
(** two levels closer than eps kT, no leads: the Gibbs state is not stationary *)
Definition rz_E (b : nat) : R := match b with 2%nat => rz_eps / 4 | _ => 0 end.
Theorem C50_unresolved_refuted : exists phi,
  gibbs ex_L rz_E 1 0 (1/2) phi /\ equilibrium 0 (fun _ => 0) (fun _ => 1/2) 0 (1/2) /\ guarded ex_L rz_E 0 (1/2) /\
  ~ stationary RRing 4 (kern_of RRing ex_L (elph_pauli_calls RRing ex_L ex_L2 0 1
      (pauli_fct ex_L 0 ry_T rz_E (fun _ => 0) (fun _ => 1/2) (fun _ => -100) (fun _ => 100) 0) (rz_wp rz_E))) phi.
Proof.
  assert (H2 : (1 <= 2)%nat) by lia. assert (Hix : ix_of "charge" 2 <> IxSsq) by discriminate.
  assert (EP : 0 < rz_eps) by (unfold rz_eps; lra).
  exists (fun k => if (k =? 2)%Z then exp (- (rz_eps / 2)) else 1).
  assert (G : gibbs ex_L rz_E 1 0 (1/2) (fun k => if (k =? 2)%Z then exp (- (rz_eps / 2)) else 1)).
  { intros c b Hc Hb. destruct (ry_states c b Hc Hb) as [(-> & ->)|[(-> & [->| ->])|(-> & ->)]].
    - change (ind0 ex_L 0 0 0) with 0%Z. simpl. replace (- ((0 - 0 * 0) / (1 / 2))) with 0 by field. rewrite exp_0. ring.
    - change (ind0 ex_L 1 1 1) with 1%Z. simpl. replace (- ((0 - 0 * 1) / (1 / 2))) with 0 by field. rewrite exp_0. ring.
    - change (ind0 ex_L 2 2 1) with 2%Z. simpl. rewrite Rmult_1_l. f_equal. field.
    - change (ind0 ex_L 3 3 2) with 3%Z. simpl. replace (- ((0 - 0 * 2) / (1 / 2))) with 0 by field. rewrite exp_0. ring. }
  split; auto. split; [intros l Hl; lia|]. split.
  { intros q c b Hq Hc Hb. assert (A : forall b, 0 <= rz_E b <= 1) by (intros [|[|[|]]]; simpl; unfold rz_eps; lra).
    pose proof (A c). pose proof (A b). unfold cut. lra. }
  intros ST. specialize (ST 1%nat ltac:(lia)). change (Z.of_nat 1) with (ind0 ex_L 1 1 1) in ST.
  change 4%nat with (ly_npauli ex_L) in ST. unfold rz_wp in ST.
  rewrite (C50_rate_equation 2 "charge" ex_si ex_L ex_L2 H2 Hix C30_system) in ST by (try lia; vm_compute; auto).
  rewrite (pauli_golden 2 "charge" ex_si ex_L H2 Hix ex_system) in ST by (try lia; vm_compute; auto).
  change (leads 0) with (@nil nat) in ST. change (leads 1) with [0%nat] in ST. change (states ex_L 1) with [1; 2]%nat in ST.
  cbn [rsum] in ST. change (ind0 ex_L 1 1 1) with 1%Z in ST. change (ind0 ex_L 2 2 1) with 2%Z in ST.
  change (1 =? 2)%Z with false in ST. change (2 =? 2)%Z with true in ST. cbv iota in ST.
  unfold ph_golden in ST.
  destruct (coherent_dec ex_si 1 1) as [_|X]; [|exfalso; apply X, rz_coherent].
  destruct (coherent_dec ex_si 1 2) as [_|X]; [|exfalso; apply X, rz_coherent].
  destruct (coherent_dec ex_si 2 1) as [_|X]; [|exfalso; apply X, rz_coherent].
  change (Nat.eq_dec 1 1) with (left (eq_refl 1%nat) : {1%nat = 1%nat} + {1%nat <> 1%nat}) in ST.
  destruct (Nat.eq_dec 1 2) as [|_]; [lia|]. destruct (Nat.eq_dec 2 1) as [|_]; [lia|]. unfold ph_rate in ST.
  assert (XV : forall s t, xph rz_V 0 s t = 1).
  { intros. unfold xph, rz_V. simpl. lra. }
  rewrite !XV in ST. replace (rz_E 1 - rz_E 2) with (- (rz_E 2 - rz_E 1)) in ST by ring.
  rewrite elph_unresolved in ST by (simpl; unfold rz_eps; lra).
  set (gg := func_pauli_elph _ _ _ _ _ _) in ST.
  assert (P : 0 < gg).
  { unfold gg, func_pauli_elph. cbv zeta. change (rz_E 2 - rz_E 1) with (rz_eps / 4 - 0).
    assert (Rmax (Rabs ((rz_eps / 4 - 0) / (1 / 2))) rz_eps * (if Rle_dec 0 (rz_eps / 4 - 0) then 1 else -1) = rz_eps) as ->.
    { rewrite Rabs_pos_eq by lra. rewrite Rmax_right by lra. destruct (Rle_dec 0 (rz_eps / 4 - 0)); lra. }
    assert (within (Rmax (0 / (1 / 2)) (9 / 10 * rz_eps)) rz_eps (50 / (1 / 2)) = true) as ->.
    { apply within_true. rewrite Rmax_right by lra. unfold rz_eps. lra. }
    pose proof (bose_pos rz_eps EP). pose proof PI_RGT_0. nra. }
  assert (X : exp rz_eps * exp (- (rz_eps / 2)) = exp (rz_eps / 2)) by (rewrite <- exp_plus; f_equal; lra).
  pose proof (exp_increasing 0 (rz_eps / 2) ltac:(lra)) as Y. rewrite exp_0 in Y.
  match type of ST with ?l = _ => assert (Z : l = gg * (exp (rz_eps / 2) - 1)) by (rewrite <- X; rring) end.
  assert (Q : gg * (exp (rz_eps / 2) - 1) = 0) by (rewrite <- Z; exact ST). nra.
Qed.
Print Assumptions C50_rate_equation.
Print Assumptions C50_signs.
Print Assumptions C50_equilibrium.
Print Assumptions C50_unresolved_refuted.
