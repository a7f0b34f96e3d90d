(** Properties C25, C26, C36 and C51: the rates from the lead functions. *)
From Coq Require Import String List Arith Lia ZArith Bool Permutation Ring Reals Lra.
From Verif Require Import Base Bits Indexing IndexingProofs RemoveProofs Binom SsqProofs Qn
  PropIndexing DMIndex DMIndexProofs DMReach PropDMIndex CRing SpecFunc Layout Coherences Kernel KernelProofs
  PauliProofs CohProofs CohKernels CohCurrents PropKernel MasterEq PropMaster Rates.
Import ListNotations.
Open Scope nat_scope.
Local Notation length := List.length.

(** ** C36: the lead functions *)
Section C36.
Open Scope R_scope.
(** fermi x = 1/(1+exp x) is the Fermi function (SpecFunc.v, Specification) *)
Theorem C36_fermi :
  (forall x, 0 <= fermi_func x < 1) /\
  (forall x y, x <= y -> fermi_func y <= fermi_func x) /\
  (forall x, x <= cut -> fermi_func x = fermi x) /\
  (forall x, Rabs x <= cut -> fermi_func x + fermi_func (- x) = 1) /\
  (* beyond the overflow guard the function is off by less than exp(-709.77) *)
  (forall x, Rabs (fermi_func x - fermi x) < exp (- cut)) /\
  (forall x, Rabs (fermi_func x + fermi_func (- x) - 1) < exp (- cut)).
Proof.
  assert (ERR : forall x, 0 <= fermi x - fermi_func x < exp (- cut)).
  { intros x. pose proof (exp_pos (- cut)). destruct (Rlt_dec cut x).
    - rewrite fermi_above by auto. pose proof (fermi_range x). pose proof (fermi_small x).
      pose proof (exp_increasing (- x) (- cut)). lra.
    - rewrite fermi_below by lra. lra. }
  assert (CP : 0 < cut) by (unfold cut; lra).
  split; [apply fermi_func_range|]. split; [|split; [apply fermi_below|split; [|split]]].
  - intros x y H. destruct (Rlt_dec cut y).
    + rewrite (fermi_above y) by auto. apply fermi_func_range.
    + rewrite !fermi_below by lra. destruct (Rle_lt_or_eq_dec x y H) as [H'| ->]; [|lra]. left. now apply fermi_decr.
  - intros x H. rewrite !fermi_below; [apply fermi_sym| |]; unfold Rabs in H; destruct (Rcase_abs x); lra.
  - intros x. specialize (ERR x). unfold Rabs. destruct (Rcase_abs _); lra.
  - intros x. pose proof (fermi_sym x) as FS. destruct (Rlt_dec cut x).
    + rewrite (fermi_below (- x)) by lra. specialize (ERR x). unfold Rabs. destruct (Rcase_abs _); lra.
    + rewrite (fermi_below x) by lra. specialize (ERR (- x)). unfold Rabs. destruct (Rcase_abs _); lra.
Qed.
(** as exact real numbers the claim f(x)+f(-x)=1 is false for every x beyond the guard *)
Theorem C36_fermi_symmetry_refuted : forall x, cut < Rabs x -> fermi_func x + fermi_func (- x) <> 1.
Proof.
  assert (X : forall x, cut < x -> fermi_func x + fermi_func (- x) <> 1).
  { intros x H. assert (0 < cut) by (unfold cut; lra). rewrite fermi_above, fermi_below by lra.
    pose proof (fermi_range (- x)). lra. }
  intros x H. unfold Rabs in H. destruct (Rcase_abs x).
  - rewrite Rplus_comm. rewrite <- (Ropp_involutive x) at 2. apply X. lra.
  - apply X. lra.
Qed.
(** the specification of func_pauli: the transition is inside the band, or the band is taken as infinite *)
Definition band (E T mu Dm Dp : R) (it : nat) : Prop :=
  it = 1%nat \/ it = 3%nat \/ (Dm - mu) / T < (E - mu) / T < (Dp - mu) / T.
Lemma in_band_true : forall E mu T Dm Dp it, in_band E mu T Dm Dp it = true <-> band E T mu Dm Dp it.
Proof.
  intros. unfold in_band, band. rewrite !orb_true_iff, !Nat.eqb_eq, within_true. tauto.
Qed.
Theorem C36_func_pauli : forall E mu T Dm Dp it,
  let r := func_pauli E mu T Dm Dp it in
  0 <= fst r <= 2 * PI /\ 0 <= snd r <= 2 * PI /\
  (band E T mu Dm Dp it -> fst r + snd r = 2 * PI) /\ (~ band E T mu Dm Dp it -> r = (0, 0)) /\
  ((E - mu) / T <= cut -> fst r = exp (- ((E - mu) / T)) * snd r) /\
  0 <= exp (- ((E - mu) / T)) * snd r - fst r <= 2 * PI * exp (- cut).
Proof.
  intros E mu T Dm Dp it r. unfold r. rewrite func_pauli_eq. cbv zeta. pose proof PI_RGT_0 as PP.
  pose proof (fermi_func_range ((E - mu) / T)) as FR. pose proof (fermi_func_ratio ((E - mu) / T)) as RT.
  set (f := fermi_func ((E - mu) / T)) in *. set (e := exp (- ((E - mu) / T))) in *. pose proof (exp_pos (- cut)) as EC.
  destruct (in_band E mu T Dm Dp it) eqn:B; cbn [fst snd].
  - apply in_band_true in B. repeat split; try nra; try contradiction.
    + intros H. unfold f, e. rewrite fermi_below by auto. rewrite fermi_exp at 1. ring.
  - assert (NB : ~ band E T mu Dm Dp it) by (rewrite <- in_band_true, B; discriminate).
    repeat split; try nra; try contradiction. intros _. f_equal; ring.
Qed.
(** with all temperatures positive the band is Dm < E < Dp *)
Theorem C36_band : forall E mu T Dm Dp it, 0 < T -> (band E T mu Dm Dp it <-> it = 1%nat \/ it = 3%nat \/ Dm < E < Dp).
Proof.
  intros E mu T Dm Dp it HT. unfold band.
  assert (X : forall a b, (a - mu) / T < (b - mu) / T <-> a < b).
  { intros a b. split; intros H.
    - apply Rmult_lt_compat_r with (r := T) in H; auto. unfold Rdiv in H. rewrite !Rmult_assoc, Rinv_l, !Rmult_1_r in H by lra. lra.
    - apply Rmult_lt_compat_r; [now apply Rinv_0_lt_compat|lra]. }
  rewrite !X. tauto.
Qed.
(** particle-hole symmetry *)
Theorem C36_particle_hole : forall E mu T Dm Dp it, 0 < T -> Rabs ((E - mu) / T) <= cut ->
  func_pauli (- E) (- mu) T (- Dp) (- Dm) it =
  (snd (func_pauli E mu T Dm Dp it), fst (func_pauli E mu T Dm Dp it)).
Proof.
  intros E mu T Dm Dp it HT H. rewrite !func_pauli_eq. cbv zeta. cbn [fst snd].
  assert (B : in_band (- E) (- mu) T (- Dp) (- Dm) it = in_band E mu T Dm Dp it).
  { apply eq_true_iff_eq. rewrite !in_band_true, !C36_band by auto. intuition lra. }
  rewrite B. replace ((- E - - mu) / T) with (- ((E - mu) / T)) by (field; lra).
  destruct C36_fermi as (_ & _ & _ & SYM & _). specialize (SYM _ H).
  assert (fermi_func (- ((E - mu) / T)) = 1 - fermi_func ((E - mu) / T)) as -> by lra. f_equal; ring.
Qed.
Example C36_case : func_pauli 1 (1/2) 1 (-10) 10 0 = (2 * PI * (1 / (exp (1/2) + 1)), 2 * PI * (1 - 1 / (exp (1/2) + 1))) /\
  func_pauli 11 (1/2) 1 (-10) 10 0 = (0, 0) /\ (func_pauli 11 (1/2) 1 (-10) 10 1 <> (0, 0)).
Proof.
  assert (C : cut = 70977 / 100) by reflexivity.
  assert (B1 : in_band 1 (1/2) 1 (-10) 10 0 = true) by (apply in_band_true, C36_band; lra).
  assert (B2 : in_band 11 (1/2) 1 (-10) 10 0 = false).
  { destruct (in_band 11 (1/2) 1 (-10) 10 0) eqn:B; auto. apply in_band_true, C36_band in B; [|lra]. destruct B as [?|[?|?]]; try discriminate. lra. }
  rewrite !func_pauli_eq. cbv zeta. rewrite B1, B2. repeat split.
  - unfold fermi_func. replace ((1 - 1 / 2) / 1) with (1 / 2) by field. destruct (Rlt_dec cut (1 / 2)); [lra|]. f_equal; ring.
  - f_equal; ring.
  - simpl (in_band _ _ _ _ _ 1). intros H. injection H as _ H. pose proof PI_RGT_0.
    pose proof (fermi_func_range ((11 - 1 / 2) / 1)). nra.
Qed.
End C36.
Print Assumptions C36_fermi.
Print Assumptions C36_fermi_symmetry_refuted.
Print Assumptions C36_func_pauli.
Print Assumptions C36_particle_hole.

(** ** Sums of reals *)
Ltac rring := rsimp; match goal with |- @eq _ ?a ?b => change (@eq R a b); first [ring|lra|nra] end.
Local Notation Cr := (Cx RRing).
Lemma rsum_nonneg : forall A (f : A -> RRing) l, (forall x, In x l -> (0 <= f x)%R) -> (0 <= rsum f l)%R.
Proof.
  induction l as [|a l IH]; intros H.
  - simpl. change (0 <= 0)%R. lra.
  - cbn [rsum]. change (0 <= f a + rsum f l)%R. pose proof (H a (or_introl eq_refl)). pose proof (IH (fun x Hx => H x (or_intror Hx))). lra.
Qed.
Lemma rsum_le : forall A (f g : A -> RRing) l, (forall x, In x l -> (f x <= g x)%R) -> (rsum f l <= rsum g l)%R.
Proof.
  induction l as [|a l IH]; intros H.
  - simpl. change (0 <= 0)%R. lra.
  - cbn [rsum]. change (f a + rsum f l <= g a + rsum g l)%R. pose proof (H a (or_introl eq_refl)). pose proof (IH (fun x Hx => H x (or_intror Hx))). lra.
Qed.
Lemma rsum_abs : forall A (f : A -> RRing) l, (Rabs (rsum f l) <= rsum (fun x => Rabs (f x) : RRing) l)%R.
Proof.
  induction l as [|a l IH].
  - simpl. change (Rabs 0 <= 0)%R. rewrite Rabs_R0. lra.
  - cbn [rsum]. change (Rabs (f a + rsum f l) <= Rabs (f a) + rsum (fun x => Rabs (f x) : RRing) l)%R.
    pose proof (Rabs_triang (f a) (rsum f l)). lra.
Qed.

Section Props.
Variables (n : nat) (name : string) (si : SI) (L : Lay).
Hypotheses (Hn : (1 <= n)%nat) (Hix : ix_of name n <> IxSsq) (SY : system n name si L).
Let LO : layout L := system_layout n name si L Hn Hix SY.
Let CH := system_charge n name si L Hn Hix SY.
Local Notation N := (charge_of si).
Local Notation SS := (cons_states L).
Local Notation dens := (dens RRing L N).
Local Notation act := (act RRing).
Add Ring RrPR : (rth RRing).
Add Ring CrPR : (rth (Cx RRing)).
Variables (nl : nat) (T : nat -> nat -> nat -> Cr) (E mu tl dm dp : nat -> R) (it : nat).
Local Notation pf := (pauli_fct L nl T E mu tl dm dp it).
Local Notation fp := (fpauli mu tl dm dp it).
Local Notation kern := (kern_of RRing L (pauli_calls RRing L nl pf)).
Open Scope R_scope.

(** the rates of the transitions, from the physical quantities *)
Definition x_of (l s t : nat) : R := re (rmul (T l t s) (T l s t)).
(** golden-rule rate of the transition t -> s at lead l *)
Definition golden (l s t : nat) : R :=
  if (N s =? S (N t))%nat then x_of l s t * fst (fp l (E s - E t))
  else if (N t =? S (N s))%nat then x_of l s t * snd (fp l (E t - E s)) else 0.
Local Notation code_rate := (rate RRing N (fun l s t => pf l (ind1 L s t (Z.of_nat (N t))) false)
                                          (fun l s t => pf l (ind1 L s t (Z.of_nat (N t))) true)).
Lemma x_sym : forall l s t, x_of l s t = x_of l t s.
Proof. intros. unfold x_of. f_equal. ring. Qed.
Lemma code_golden : forall l s t, In s SS -> In t SS -> (l < nl)%nat -> code_rate l s t = golden l s t.
Proof.
  intros l s t Hs Ht Hl. apply (cons_block_of L N CH) in Hs. apply (cons_block_of L N CH) in Ht.
  unfold rate, golden. destruct (Nat.eqb_spec (N s) (S (N t))) as [e|e]; [|destruct (Nat.eqb_spec (N t) (S (N s))) as [e'|e']; auto].
  - assert (Hs' : In s (states L (Z.of_nat (N t) + 1))) by (replace (Z.of_nat (N t) + 1)%Z with (Z.of_nat (N s)) by lia; auto).
    rewrite (pauli_fct_val L LO); auto; try reflexivity; lia.
  - assert (Ht' : In t (states L (Z.of_nat (N s) + 1))) by (replace (Z.of_nat (N s) + 1)%Z with (Z.of_nat (N t)) by lia; auto).
    rewrite (pauli_fct_val L LO); auto; try lia. fold (x_of l t s). now rewrite x_sym.
Qed.
(** the Pauli kernel is the rate equation with the golden-rule rates *)
Lemma pauli_golden : forall phi b c, (0 <= c)%Z -> In b (states L c) ->
  act (ly_npauli L) kern phi (ind0 L b b c) =
  rsum (fun l => rsum (fun t => golden l b t * re (dens phi t t) - golden l t b * re (dens phi b b) : RRing) SS) (leads nl).
Proof.
  intros phi b c Hc Hb. rewrite (C46_pauli RRing n name si L Hn Hix SY) by auto.
  apply rsum_ext. intros l Hl. unfold leads in Hl. apply in_seq in Hl. unfold rate_lead. apply rsum_ext. intros t Ht.
  assert (Hb' : In b SS) by (apply (cons_in L LO c); auto).
  rewrite (code_golden l b t), (code_golden l t b) by (auto; lia). reflexivity.
Qed.

(** *** C26 *)
Lemma fp_nonneg : forall l e, 0 <= fst (fp l e) /\ 0 <= snd (fp l e).
Proof. intros. unfold fpauli. destruct (C36_func_pauli e (mu l) (tl l) (dm l) (dp l) it) as (A & B & _). lra. Qed.
Lemma x_nonneg : hermitian RRing T -> forall l s t, 0 <= x_of l s t.
Proof.
  intros HT l s t. unfold x_of. rewrite <- (HT l s t). rewrite re_mul. cbn [re im conj].
  change (0 <= re (T l s t) * re (T l s t) - (- im (T l s t)) * im (T l s t)). nra.
Qed.
Lemma golden_nonneg : hermitian RRing T -> forall l s t, 0 <= golden l s t.
Proof.
  intros HT l s t. unfold golden. pose proof (x_nonneg HT l s t).
  destruct (_ =? _)%nat; [|destruct (_ =? _)%nat; [|lra]]; apply Rmult_le_pos; auto; apply fp_nonneg.
Qed.
Lemma golden_self : forall l s, golden l s s = 0.
Proof. intros. unfold golden. destruct (Nat.eqb_spec (N s) (S (N s))); [lia|auto]. Qed.
Lemma dens_unit : forall j b, In b SS ->
  re (dens (unit_vec RRing (Z.of_nat j)) b b) = if Z.eq_dec (ind0 L b b (Z.of_nat (N b))) (Z.of_nat j) then 1 else 0.
Proof.
  intros j b Hb. apply (cons_block_of L N CH) in Hb.
  rewrite (dens_at RRing L N CH _ b b (Z.of_nat (N b))) by (auto; lia).
  rewrite (rho_diag_real RRing L LO) by (auto; lia). reflexivity.
Qed.
Lemma cons_nodup : NoDup SS.
Proof.
  unfold cons_states. clear -LO. assert (X : forall l, NoDup l -> (forall x, In x l -> (0 <= x)%Z) -> NoDup (flat_map (states L) l)).
    { induction l as [|x l IH]; intros ND P; simpl; [constructor|]. inversion ND; subst. apply NoDup_app_intro;
      [apply (lo_nodup L LO); apply P; now left|apply IH; auto; intros; apply P; now right|].
      intros y Hy Hy'. apply in_flat_map in Hy'. destruct Hy' as (x' & Hx' & Hy').
      pose proof (lo_same L LO x x' y (P x (or_introl eq_refl)) (P x' (or_intror Hx')) Hy Hy'). subst. auto. }
    apply X; [apply charges_nodup|]. intros x Hx. apply charges_in in Hx. lia.
Qed.
(** the entry of the Pauli kernel for two states *)
Theorem C26_entries : forall b c a q, (0 <= c)%Z -> (0 <= q)%Z -> In b (states L c) -> In a (states L q) ->
  kern (ind0 L b b c, ind0 L a a q) =
  if Nat.eq_dec b a then rsum (fun l => - rsum (fun t => golden l t b : RRing) SS : RRing) (leads nl)
  else rsum (fun l => golden l b a : RRing) (leads nl).
Proof.
  intros b c a q Hc Hq Hb Ha.
  destruct (lo_diag L LO a q Hq Ha) as (Ra & _).
  assert (Hb' : In b SS) by (apply (cons_in L LO c); auto). assert (Ha' : In a SS) by (apply (cons_in L LO q); auto).
  replace (ind0 L a a q) with (Z.of_nat (Z.to_nat (ind0 L a a q))) by lia.
  rewrite <- (act_unit RRing (ly_npauli L)) by lia. rewrite pauli_golden by auto.
  assert (DU : forall t, In t SS -> re (dens (unit_vec RRing (Z.of_nat (Z.to_nat (ind0 L a a q)))) t t) = if Nat.eq_dec t a then 1 else 0).
  { intros t Ht. rewrite dens_unit by auto. rewrite Z2Nat.id by lia. apply (cons_block_of L N CH) in Ht.
    destruct (Nat.eq_dec t a) as [->|Hne].
    - rewrite (CH q a) by auto. rewrite Z2Nat.id by auto. destruct (Z.eq_dec _ _); congruence.
    - destruct (Z.eq_dec _ _) as [EQ|EQ]; auto. exfalso. apply Hne.
      destruct (lo_diag L LO t (Z.of_nat (N t)) ltac:(lia) Ht) as (Rt & _).
      destruct (lo_inj L LO t t (Z.of_nat (N t)) a a q) as (_ & [[-> _]|[-> _]]); auto; lia. }
  destruct (Nat.eq_dec b a) as [<-|Hne].
  - apply rsum_ext. intros l _. rewrite <- (rsum_opp RRing). apply rsum_ext. intros t Ht. rewrite !DU by auto.
    destruct (Nat.eq_dec b b); [|congruence]. destruct (Nat.eq_dec t b) as [->|]; rsimp; rewrite ?golden_self; rring.
  - apply rsum_ext. intros l _. rewrite (rsum_single RRing _ _ SS a cons_nodup Ha').
    + rewrite !DU by auto. destruct (Nat.eq_dec a a); [|congruence]. destruct (Nat.eq_dec b a); [congruence|]. rring.
    + intros t Ht Hta. rewrite !DU by auto. destruct (Nat.eq_dec t a); [congruence|]. destruct (Nat.eq_dec b a); [congruence|]. rring.
Qed.
Theorem C26_signs : hermitian RRing T -> forall i j, (i < ly_npauli L)%nat -> (j < ly_npauli L)%nat ->
  (i <> j -> 0 <= kern (Z.of_nat i, Z.of_nat j)) /\ kern (Z.of_nat i, Z.of_nat i) <= 0.
Proof.
  intros HT i j Hi Hj. destruct (lo_surj L LO i Hi) as (b & c & Hc & Hb & Eb). destruct (lo_surj L LO j Hj) as (a & q & Hq & Ha & Ea).
  split.
  - intros Hne. rewrite <- Eb, <- Ea, C26_entries by auto. destruct (Nat.eq_dec b a) as [->|_].
    { exfalso. pose proof (lo_same L LO c q a Hc Hq Hb Ha). subst q. lia. }
    apply rsum_nonneg. intros l _. now apply golden_nonneg.
  - rewrite <- Eb, C26_entries by auto. destruct (Nat.eq_dec b b) as [_|]; [|congruence].
    assert (X : 0 <= rsum (fun l => rsum (fun t => golden l t b : RRing) SS : RRing) (leads nl)).
    { apply rsum_nonneg. intros l _. apply rsum_nonneg. intros t _. now apply golden_nonneg. }
    rewrite (rsum_opp RRing). change (@ropp RRing) with Ropp. lra.
Qed.

(** *** C25 *)
(** the grand-canonical populations *)
Definition gibbs (z m th : R) (phi : Z -> R) : Prop :=
  forall c b, (0 <= c)%Z -> In b (states L c) -> phi (ind0 L b b c) = z * exp (- ((E b - m * IZR c) / th)).
Definition equilibrium (m th : R) : Prop := forall l, (l < nl)%nat -> mu l = m /\ tl l = th.
(** no transition lies beyond the overflow guard of fermi_func *)
Definition guarded (m th : R) : Prop :=
  forall q c b, (0 <= q)%Z -> In c (states L (q + 1)) -> In b (states L q) -> (E c - E b - m) / th <= cut.

Lemma flow_val : forall phi l q c b, (0 <= q)%Z -> In c (states L (q + 1)) -> In b (states L q) -> (l < nl)%nat ->
  pauli_flow RRing L phi pf l c b q =
  x_of l c b * (fst (fp l (E c - E b)) * phi (ind0 L b b q) - snd (fp l (E c - E b)) * phi (ind0 L c c (q + 1))).
Proof.
  intros phi l q c b Hq Hc Hb Hl. unfold pauli_flow. cbv zeta. rewrite !(pauli_fct_val L LO) by auto. fold (x_of l c b). rring.
Qed.
(** detailed balance, up to the guard *)
Lemma flow_gibbs : forall z m th phi, 0 <= z -> th <> 0 -> gibbs z m th phi -> equilibrium m th ->
  forall l q c b, (0 <= q)%Z -> In c (states L (q + 1)) -> In b (states L q) -> (l < nl)%nat ->
  ((E c - E b - m) / th <= cut -> pauli_flow RRing L phi pf l c b q = 0) /\
  Rabs (pauli_flow RRing L phi pf l c b q) <= 2 * PI * exp (- cut) * (Rabs (x_of l c b) * phi (ind0 L b b q)).
Proof.
  intros z m th phi Hz Hth G EQ l q c b Hq Hc Hb Hl. rewrite flow_val by auto. destruct (EQ l Hl) as (Em & Et).
  rewrite (G q b), (G (q + 1)%Z c) by (auto; lia). rewrite plus_IZR.
  assert (exp (- ((E c - m * (IZR q + 1)) / th)) = exp (- ((E b - m * IZR q) / th)) * exp (- ((E c - E b - m) / th))) as ->.
  { rewrite <- exp_plus. f_equal. field. auto. }
  unfold fpauli. rewrite Em, Et.
  destruct (C36_func_pauli (E c - E b) m th (dm l) (dp l) it) as (_ & _ & _ & _ & X & Y).
  set (r := func_pauli _ _ _ _ _ _) in *. set (e := exp (- ((E c - E b - m) / th))) in *.
  pose proof (exp_pos (- ((E b - m * IZR q) / th))) as EP. set (g := exp (- ((E b - m * IZR q) / th))) in *.
  split.
  - intros H. rewrite (X H). rring.
  - replace (x_of l c b * (fst r * (z * g) - snd r * (z * (g * e)))) with (- (x_of l c b * (z * g)) * (e * snd r - fst r)) by ring.
    rewrite Rabs_mult, Rabs_Ropp, Rabs_mult. rewrite (Rabs_pos_eq (z * g)) by nra. rewrite (Rabs_pos_eq (e * snd r - fst r)) by lra.
    replace (2 * PI * exp (- cut) * (Rabs (x_of l c b) * (z * g))) with (Rabs (x_of l c b) * (z * g) * (2 * PI * exp (- cut))) by ring.
    apply Rmult_le_compat_l; [|lra]. apply Rmult_le_pos; [apply Rabs_pos|nra].
Qed.
Theorem C25_equilibrium : forall z m th phi, 0 <= z -> th <> 0 -> gibbs z m th phi -> equilibrium m th -> guarded m th ->
  stationary RRing (ly_npauli L) kern phi /\
  (forall l, (l < nl)%nat -> pauli_current RRing L phi pf l = 0 /\ pauli_energy_current RRing L phi pf E l = 0 /\
     heat_of RRing (pauli_current RRing L phi pf) (pauli_energy_current RRing L phi pf E) mu l = 0).
Proof.
  intros z m th phi Hz Hth G EQ GU.
  assert (FL : forall l q c b, (0 <= q)%Z -> In c (states L (q + 1)) -> In b (states L q) -> (l < nl)%nat ->
     pauli_flow RRing L phi pf l c b q = 0).
  { intros l q c b Hq Hc Hb Hl. apply (flow_gibbs z m th phi); auto. now apply (GU q). }
  split.
  - intros i Hi. destruct (lo_surj L LO i Hi) as (b & c & Hc & Hb & <-).
    rewrite (pauli_row RRing L LO) by auto. unfold gain.
    rewrite !(rsum_0 RRing); [rring| |].
    + intros u Hu. apply (rsum_0 RRing). intros l Hl. apply in_seq in Hl. apply FL; auto. lia.
    + intros u Hu. apply (rsum_0 RRing). intros l Hl. apply in_seq in Hl.
      assert (Hc' : (0 <= c - 1)%Z).
      { destruct (Z.eq_dec c 0) as [->|]; [|lia]. change (0 - 1)%Z with (-1)%Z in Hu. rewrite (lo_below L LO) in Hu. destruct Hu. }
      apply FL; auto; [|lia]. now replace (c - 1 + 1)%Z with c by lia.
  - intros l Hl.
    assert (W : forall w : nat -> nat -> RRing, rsum (fun bc => rsum (fun c => rsum (fun b => w c b * pauli_flow RRing L phi pf l c b bc : RRing) (states L bc)) (states L (bc + 1))) (charges1 L) = 0).
    { intros w. apply (rsum_0 RRing). intros q Hq. unfold charges1 in Hq. apply in_map_iff in Hq. destruct Hq as (k & <- & _).
      apply (rsum_0 RRing). intros c Hc. apply (rsum_0 RRing). intros b Hb. rewrite FL by (auto; lia). rring. }
    assert (A : pauli_current RRing L phi pf l = 0).
    { rewrite <- (W (fun _ _ => 1)). unfold pauli_current. apply rsum_ext. intros q _. apply rsum_ext. intros c _. apply rsum_ext. intros b _. rring. }
    assert (B : pauli_energy_current RRing L phi pf E l = 0) by (rewrite <- (W (fun c b => - (E b - E c))); reflexivity).
    split; auto. split; auto. unfold heat_of. rewrite A, B. rring.
Qed.
(** without the guard the populations are stationary, and the currents zero, up to exp(-709.77) *)
Theorem C25_error : forall z m th phi, 0 <= z -> th <> 0 -> gibbs z m th phi -> equilibrium m th ->
  (forall b q, (0 <= q)%Z -> In b (states L q) ->
     Rabs (act (ly_npauli L) kern phi (ind0 L b b q)) <=
     2 * PI * exp (- cut) * rsum (fun l => rsum (fun t => Rabs (x_of l b t) * re (dens phi t t) : RRing) (states L (q - 1)) +
                                            rsum (fun t => Rabs (x_of l t b) * re (dens phi b b) : RRing) (states L (q + 1)) : RRing) (leads nl)) /\
  (forall l, (l < nl)%nat ->
     Rabs (pauli_current RRing L phi pf l) <=
     2 * PI * exp (- cut) * rsum (fun q => rsum (fun c => rsum (fun b => Rabs (x_of l c b) * re (dens phi b b) : RRing) (states L q)) (states L (q + 1))) (charges1 L)).
Proof.
  intros z m th phi Hz Hth G EQ. set (k := 2 * PI * exp (- cut)).
  assert (D : forall b q, (0 <= q)%Z -> In b (states L q) -> re (dens phi b b) = phi (ind0 L b b q)).
  { intros b q Hq Hb. rewrite (dens_at RRing L N CH phi b b q) by auto. now rewrite (rho_diag_real RRing L LO) by auto. }
  assert (FL : forall l q c b, (0 <= q)%Z -> In c (states L (q + 1)) -> In b (states L q) -> (l < nl)%nat ->
     Rabs (pauli_flow RRing L phi pf l c b q) <= k * (Rabs (x_of l c b) * re (dens phi b b))).
  { intros l q c b Hq Hc Hb Hl. rewrite (D b q) by auto. apply (flow_gibbs z m th phi); auto. }
  assert (KM : forall A (f : A -> RRing) l, k * rsum f l = rsum (fun x => k * f x : RRing) l).
  { intros. symmetry. apply (rsum_mul_l RRing). }
  split.
  - intros b c Hc Hb. rewrite (pauli_row RRing L LO) by auto. unfold gain.
    rewrite (rsum_swap RRing _ _ (fun a l => pauli_flow RRing L phi pf l b a (c - 1))), (rsum_swap RRing _ _ (fun a l => pauli_flow RRing L phi pf l a b c)).
    rewrite <- (rsum_minus RRing). eapply Rle_trans; [apply rsum_abs|]. rewrite KM. apply rsum_le. intros l Hl. apply in_seq in Hl.
    change (@rsub RRing) with Rminus. change (@radd RRing) with Rplus.
    eapply Rle_trans; [apply Rabs_triang|]. rewrite Rabs_Ropp.
    change (@rmul RRing) with Rmult. rewrite Rmult_plus_distr_l. rewrite !KM.
    apply Rplus_le_compat; (eapply Rle_trans; [apply rsum_abs|]; apply rsum_le; intros u Hu).
    + assert (Hc' : (0 <= c - 1)%Z).
      { destruct (Z.eq_dec c 0) as [->|]; [|lia]. change (0 - 1)%Z with (-1)%Z in Hu. rewrite (lo_below L LO) in Hu. destruct Hu. }
      apply FL; auto; [|lia]. now replace (c - 1 + 1)%Z with c by lia.
    + apply FL; auto. lia.
  - intros l Hl. unfold pauli_current. rewrite KM. eapply Rle_trans; [apply rsum_abs|]. apply rsum_le. intros q Hq.
    unfold charges1 in Hq. apply in_map_iff in Hq. destruct Hq as (k' & <- & _).
    rewrite KM. eapply Rle_trans; [apply rsum_abs|]. apply rsum_le. intros c Hc.
    rewrite KM. eapply Rle_trans; [apply rsum_abs|]. apply rsum_le. intros b Hb. apply FL; auto. lia.
Qed.
(** such a vector exists and can be normalised *)
Theorem C25_gibbs_exists : forall m th, SS <> [] -> exists z phi, 0 < z /\ gibbs z m th phi /\
  rsum (fun i => phi (Z.of_nat i) : RRing) (seq 0 (ly_npauli L)) = 1.
Proof.
  intros m th NE. set (w := fun b => exp (- ((E b - m * IZR (Z.of_nat (N b))) / th)) : RRing).
  set (phi0 := fun z k => rsum (fun b => if Z.eq_dec (ind0 L b b (Z.of_nat (N b))) k then rmul (z : RRing) (w b) else r0) SS : RRing).
  assert (ONE : forall z b c, (0 <= c)%Z -> In b (states L c) -> phi0 z (ind0 L b b c) = z * exp (- ((E b - m * IZR c) / th))).
  { intros z b c Hc Hb. unfold phi0. rewrite (rsum_single RRing _ _ SS b cons_nodup (cons_in L LO c b Hc Hb)).
    - rewrite (CH c b Hc Hb), Z2Nat.id by auto. destruct (Z.eq_dec _ _); [|congruence]. unfold w. now rewrite (CH c b Hc Hb), Z2Nat.id by auto.
    - intros t Ht Hne. destruct (Z.eq_dec _ _) as [EQ|]; [|reflexivity]. exfalso. apply Hne.
      apply (cons_block_of L N CH) in Ht. destruct (lo_diag L LO t (Z.of_nat (N t)) ltac:(lia) Ht) as (Rt & _).
      destruct (lo_inj L LO t t (Z.of_nat (N t)) b b c) as (_ & [[-> _]|[-> _]]); auto; lia. }
  assert (TOT : forall z, rsum (fun i => phi0 z (Z.of_nat i) : RRing) (seq 0 (ly_npauli L)) = rmul (z : RRing) (rsum w SS)).
  { intros z. rewrite <- (diag_sum RRing L LO (phi0 z)). rewrite <- (rsum_mul_l RRing). unfold cons_states. rewrite (rsum_flat_map RRing).
    apply rsum_ext. intros c Hc. apply charges_in in Hc. apply rsum_ext. intros b Hb. rewrite ONE by (auto; lia).
    unfold w. rewrite (CH c b) by (auto; lia). rewrite Z2Nat.id by lia. reflexivity. }
  assert (POS : 0 < rsum w SS).
  { destruct SS as [|b l]; [congruence|]. cbn [rsum]. change (@radd RRing) with Rplus.
    assert (0 <= rsum w l) by (apply rsum_nonneg; intros; left; apply exp_pos). pose proof (exp_pos (- ((E b - m * IZR (Z.of_nat (N b))) / th))).
    change (0 < exp (- ((E b - m * IZR (Z.of_nat (N b))) / th)) + rsum w l). lra. }
  exists (/ rsum w SS), (phi0 (/ rsum w SS)). split; [now apply Rinv_0_lt_compat|]. split.
  - intros c b Hc Hb. now apply ONE.
  - rewrite TOT. apply Rinv_l. lra.
Qed.
End Props.
(** *** Examples *)
Open Scope R_scope.
Definition rx_si : SI := fst (call_init KDM 1 "charge").
Definition rx_L : Lay := lay_of (snd (call_init KDM 1 "charge")).
Example rx_system : system 1 "charge" rx_si rx_L.
Proof. apply sys_plain. apply reach_init. reflexivity. Qed.
Example rx_charge : ix_of "charge" 1 <> IxSsq.
Proof. vm_compute. discriminate. Qed.
Definition rx_T (l a b : nat) : Cr := if (a =? b)%nat then @mkC RRing 0 0 else @mkC RRing 1 0.
Example rx_herm : hermitian RRing rx_T.
Proof.
  intros l a b. unfold rx_T. rewrite Nat.eqb_sym. destruct (_ =? _)%nat; apply cplx_eq; rsimp; match goal with |- @eq _ ?u ?v => change (@eq R u v) end; lra.
Qed.
Lemma rx_states : forall c b, (0 <= c)%Z -> In b (states rx_L c) -> (c = 0%Z /\ b = 0%nat) \/ (c = 1%Z /\ b = 1%nat).
Proof.
  intros c b Hc Hb. pose proof (lo_range rx_L (system_layout 1 "charge" rx_si rx_L (le_n 1) rx_charge rx_system) c b Hc Hb) as R.
  change (c < 2)%Z in R. assert (c = 0 \/ c = 1)%Z as [->| ->] by lia; vm_compute in Hb; destruct Hb as [<-|[]]; auto.
Qed.
Definition rx_E (b : nat) : R := match b with O => 0 | _ => 710 end.
Definition rx_phi (k : Z) : R := if (k =? 0)%Z then 1 else exp (- 710).
(** one level 710 kT above the chemical potential: the guard breaks detailed balance *)
Theorem C25_beyond_guard_refuted :
  let pf := pauli_fct rx_L 1 rx_T rx_E (fun _ => 0) (fun _ => 1) (fun _ => -10000) (fun _ => 10000) 0 in
  hermitian RRing rx_T /\ gibbs rx_L rx_E 1 0 1 rx_phi /\ equilibrium 1 (fun _ => 0) (fun _ => 1) 0 1 /\
  pauli_current RRing rx_L rx_phi pf 0%nat < 0 /\
  ~ stationary RRing (ly_npauli rx_L) (kern_of RRing rx_L (pauli_calls RRing rx_L 1 pf)) rx_phi.
Proof.
  intros pf. split; [apply rx_herm|]. split; [|split].
  - intros c b Hc Hb. destruct (rx_states c b Hc Hb) as [[-> ->]|[-> ->]].
    + change (rx_phi (ind0 rx_L 0 0 0)) with 1. replace (- ((rx_E 0 - 0 * 0) / 1)) with 0 by (simpl; field). rewrite exp_0. ring.
    + change (rx_phi (ind0 rx_L 1 1 1)) with (exp (- 710)). replace (- ((rx_E 1 - 0 * 1) / 1)) with (- 710) by (simpl; field). ring.
  - intros l _. auto.
  - assert (F : pauli_current RRing rx_L rx_phi pf 0%nat = pauli_flow RRing rx_L rx_phi pf 0 1 0 0).
    { unfold pauli_current. change (charges1 rx_L) with [0%Z]. cbn [rsum]. change (states rx_L (0 + 1)) with [1%nat]. change (states rx_L 0) with [0%nat].
      cbn [rsum]. rring. }
    assert (NEG : pauli_current RRing rx_L rx_phi pf 0%nat < 0).
    { rewrite F. unfold pf. rewrite (flow_val 1 "charge" rx_si rx_L (le_n 1) rx_charge rx_system) by (try lia; vm_compute; auto).
      change (rx_phi (ind0 rx_L 0 0 0)) with 1. change (rx_phi (ind0 rx_L 1 1 (0 + 1))) with (exp (- 710)).
      assert (x_of rx_T 0 1 0 = 1) as -> by (unfold x_of, rx_T; rewrite re_mul; simpl; rsimp; lra).
      unfold fpauli. rewrite func_pauli_eq. cbv zeta.
      assert (in_band (rx_E 1 - rx_E 0) 0 1 (-10000) 10000 0 = true) as -> by (apply in_band_true; unfold band; simpl; right; right; lra).
      replace ((rx_E 1 - rx_E 0 - 0) / 1) with 710 by (simpl; field).
      rewrite fermi_above by (unfold cut; lra). cbn [fst snd]. pose proof PI_RGT_0. pose proof (exp_pos (- 710)). nra. }
    split; auto. intros ST.
    destruct (C24_pauli_currents RRing 1 "charge" rx_si rx_L (le_n 1) rx_charge rx_system 1 pf rx_phi rx_E) as (_ & _ & Z0 & _).
    destruct (Z0 ST) as (Z1 & _). change (leads 1) with [0%nat] in Z1. cbn [rsum] in Z1. revert Z1. rsimp. intros Z1.
    change (pauli_current RRing rx_L rx_phi pf 0%nat + 0 = 0) in Z1. lra.
Qed.
(** two levels with an interaction, one lead of which couples with complex amplitudes *)
Definition ry_E (b : nat) : R := match b with O => 0 | 1%nat => 1 | 2%nat => 3 | _ => 6 end.
Definition ry_T (l a b : nat) : Cr := if (a =? b)%nat then @mkC RRing 0 0 else @mkC RRing (INR (l + (a + b))) (INR a - INR b)%R.
Example ry_herm : hermitian RRing ry_T.
Proof.
  intros l a b. unfold ry_T. rewrite Nat.eqb_sym. destruct (Nat.eqb_spec b a) as [->|]; apply cplx_eq; rsimp; match goal with |- @eq _ ?u ?v => change (@eq R u v) end;
    rewrite ?(Nat.add_comm a b); lra.
Qed.
Lemma ry_states : forall c b, (0 <= c)%Z -> In b (states ex_L c) ->
  (c = 0%Z /\ b = 0%nat) \/ (c = 1%Z /\ (b = 1 \/ b = 2)%nat) \/ (c = 2%Z /\ b = 3%nat).
Proof.
  intros c b Hc Hb. pose proof (lo_range ex_L (system_layout 2 "charge" ex_si ex_L (le_S _ _ (le_n 1)) ltac:(discriminate) ex_system) c b Hc Hb) as R.
  change (c < 3)%Z in R. assert (c = 0 \/ c = 1 \/ c = 2)%Z as [->|[->| ->]] by lia; vm_compute in Hb; intuition auto.
Qed.
Example C25_case : exists z phi,
  let pf := pauli_fct ex_L 2 ry_T ry_E (fun _ => 2) (fun _ => 1/2) (fun _ => -100) (fun _ => 5/2) 2 in
  0 < z /\ gibbs ex_L ry_E z 2 (1/2) phi /\ equilibrium 2 (fun _ => 2) (fun _ => 1/2) 2 (1/2) /\ guarded ex_L ry_E 2 (1/2) /\
  stationary RRing 4 (kern_of RRing ex_L (pauli_calls RRing ex_L 2 pf)) phi /\
  pauli_current RRing ex_L phi pf 0%nat = 0 /\ pauli_current RRing ex_L phi pf 1%nat = 0 /\
  0 < kern_of RRing ex_L (pauli_calls RRing ex_L 2 pf) (1%Z, 0%Z) /\
  kern_of RRing ex_L (pauli_calls RRing ex_L 2 pf) (2%Z, 0%Z) = 0.
Proof.
  assert (Hix : ix_of "charge" 2 <> IxSsq) by discriminate. assert (H2 : (1 <= 2)%nat) by lia.
  destruct (C25_gibbs_exists 2 "charge" ex_si ex_L H2 Hix ex_system ry_E 2 (1/2)) as (z & phi & Hz & G & _); [vm_compute; discriminate|].
  assert (EQ : equilibrium 2 (fun _ => 2) (fun _ => 1/2) 2 (1/2)) by (intros l _; auto).
  assert (GU : guarded ex_L ry_E 2 (1/2)).
  { intros q c b Hq Hc Hb. assert (Hq' : (0 <= q + 1)%Z) by lia. pose proof (ry_states (q + 1) c Hq' Hc) as XX. clear Hc. destruct (ry_states q b Hq Hb) as [[-> Bb]|[[-> Bb]|[-> Bb]]];
      destruct XX as [[? Bc]|[[? Bc]|[? Bc]]]; try lia;
      repeat match goal with X : _ \/ _ |- _ => destruct X end; subst; simpl; unfold cut; lra. }
  exists z, phi. intros pf. split; auto. split; auto. split; auto. split; auto.
  destruct (C25_equilibrium 2 "charge" ex_si ex_L H2 Hix ex_system 2 ry_T ry_E (fun _ => 2) (fun _ => 1/2) (fun _ => -100) (fun _ => 5/2) 2 z 2 (1/2) phi) as (A & B);
    auto; [lra|lra|].
  split; [exact A|]. split; [exact (proj1 (B 0%nat (Nat.lt_0_succ 1)))|]. split; [exact (proj1 (B 1%nat (Nat.lt_succ_diag_r 1)))|].
  pose proof (fun b c a q => C26_entries 2 "charge" ex_si ex_L H2 Hix ex_system 2 ry_T ry_E (fun _ => 2) (fun _ => 1/2) (fun _ => -100) (fun _ => 5/2) 2 b c a q) as K.
  assert (GV : forall l b, (b = 1 \/ b = 2)%nat -> golden ex_si ry_T ry_E (fun _ => 2) (fun _ => 1/2) (fun _ => -100) (fun _ => 5/2) 2 l b 0 =
                 x_of ry_T l b 0 * fst (func_pauli (ry_E b) 2 (1/2) (-100) (5/2) 2)).
  { intros l b Hb. unfold golden, fpauli. assert ((charge_of ex_si b =? S (charge_of ex_si 0))%nat = true) as -> by (destruct Hb as [->| ->]; reflexivity).
    simpl (ry_E 0). now rewrite Rminus_0_r. }
  specialize (K) as K1. specialize (K1 1%nat 1%Z 0%nat 0%Z ltac:(lia) ltac:(lia) ltac:(vm_compute; auto) ltac:(vm_compute; auto)).
  change (ind0 ex_L 1 1 1) with 1%Z in K1. change (ind0 ex_L 0 0 0) with 0%Z in K1. destruct (Nat.eq_dec 1 0) as [|_]; [lia|].
  specialize (K 2%nat 1%Z 0%nat 0%Z ltac:(lia) ltac:(lia) ltac:(vm_compute; auto) ltac:(vm_compute; auto)).
  change (ind0 ex_L 2 2 1) with 2%Z in K. change (ind0 ex_L 0 0 0) with 0%Z in K. destruct (Nat.eq_dec 2 0) as [|_]; [lia|].
  change (leads 2) with [0; 1]%nat in *. cbn [rsum] in K, K1. rewrite !GV in K, K1 by auto. unfold pf.
  split.
  - rewrite K1. rewrite func_pauli_eq. cbv zeta.
    assert (in_band (ry_E 1) 2 (1/2) (-100) (5/2) 2 = true) as -> by (apply in_band_true; unfold band; simpl; right; right; lra).
    rewrite fermi_below by (unfold cut; simpl; lra). pose proof (fermi_range ((ry_E 1 - 2) / (1 / 2))). pose proof PI_RGT_0.
    assert (X0 : x_of ry_T 0 1 0 = 2) by (unfold x_of, ry_T; rewrite re_mul; simpl; rsimp; lra).
    assert (X1 : x_of ry_T 1 1 0 = 5) by (unfold x_of, ry_T; rewrite re_mul; simpl; rsimp; lra).
    rewrite X0, X1. cbn [fst]. rsimp. change (0 < 2 * (2 * PI * fermi ((ry_E 1 - 2) / (1 / 2))) + (5 * (2 * PI * fermi ((ry_E 1 - 2) / (1 / 2))) + 0)). nra.
  - rewrite K. rewrite func_pauli_eq. cbv zeta.
    assert (in_band (ry_E 2) 2 (1/2) (-100) (5/2) 2 = false) as ->.
    { destruct (in_band _ _ _ _ _ _) eqn:B'; auto. apply in_band_true in B'. unfold band in B'. simpl in B'. destruct B' as [?|[?|?]]; try discriminate. lra. }
    cbn [fst]. rring.
Qed.
Print Assumptions C26_entries.
Print Assumptions C26_signs.
Print Assumptions C25_equilibrium.
Print Assumptions C25_error.
Print Assumptions C25_gibbs_exists.
Print Assumptions C25_beyond_guard_refuted.
