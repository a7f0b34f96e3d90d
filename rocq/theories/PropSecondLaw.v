(** Property C70: the stationary currents of the Pauli approach obey the laws of thermodynamics. *)
From Coq Require Import String List Arith Lia ZArith Bool Permutation Ring Reals Lra.
From Verif Require Import Base Bits Indexing DMIndex DMIndexProofs DMReach PropDMIndex CRing SpecFunc Layout Coherences Kernel KernelProofs
  PauliProofs CohProofs CohKernels CohCurrents PropKernel MatrixFree PropSolve MasterEq PropMaster KernelGen Rates PropRates Markov PropStationary.
Import ListNotations.
Open Scope nat_scope.
Local Notation length := List.length.
Local Notation Cr := (Cx RRing).

(** ** Specification *)
Open Scope R_scope.
(** entropy taken from the leads per unit of time *)
Definition entropy_flow (nl : nat) (heat tl : nat -> R) : R := rsum (fun l => heat l / tl l : RRing) (leads nl).

Lemma ln_gap : forall x y a, 0 < x -> 0 < y -> (a + ln y - ln x) * (exp (- a) * x - y) <= 0.
Proof.
  intros x y a Hx Hy. assert (E : exp (- a) * x = exp (ln x - a)) by (unfold Rminus; rewrite exp_plus, exp_ln by auto; ring).
  rewrite E. rewrite <- (exp_ln y) at 2 by auto. destruct (Rle_lt_dec (ln y) (ln x - a)) as [H|H].
  - assert (exp (ln y) <= exp (ln x - a)) by (destruct H as [H|H]; [left; now apply exp_increasing|rewrite H; lra]). nra.
  - pose proof (exp_increasing _ _ H). nra.
Qed.

Section Props.
Variables (n : nat) (name : string) (si : SI) (L : Lay).
Hypotheses (Hn : (1 <= n)%nat) (Hix : ix_of name n <> IxSsq) (SY : system n name si L).
Let LO : layout L := system_layout n name si L Hn Hix SY.
Let CH := system_charge n name si L Hn Hix SY.
Local Notation N := (charge_of si).
Variables (nl : nat) (T : nat -> nat -> nat -> Cr) (E mu tl dm dp : nat -> R) (it : nat).
Hypothesis HT : hermitian RRing T.
Local Notation pf := (pauli_fct L nl T E mu tl dm dp it).
Local Notation fp := (fpauli mu tl dm dp it).
Local Notation kern := (kern_of RRing L (pauli_calls RRing L nl pf)).
Local Notation golden := (golden si T E mu tl dm dp it).
Variable phi : Z -> R.
Hypotheses (ST : stationary RRing (ly_npauli L) kern phi)
  (POS : forall b c, (0 <= c)%Z -> In b (states L c) -> 0 <= phi (ind0 L b b c)).
Local Notation current := (pauli_current RRing L phi pf).
Local Notation energy := (pauli_energy_current RRing L phi pf E).
Local Notation heat := (heat_of RRing current energy mu).
Local Notation flow := (pauli_flow RRing L phi pf).

Lemma charges1_in : forall q, In q (charges1 L) -> (0 <= q)%Z.
Proof. intros q H. unfold charges1 in H. apply in_map_iff in H. destruct H as (k & <- & _). lia. Qed.
(** sums over the transitions *)
Definition tsum (f : Z -> nat -> nat -> R) : R :=
  rsum (fun q => rsum (fun c => rsum (fun b => f q c b : RRing) (states L q)) (states L (q + 1))) (charges1 L).
Lemma tsum_lin : forall a f b g, a * tsum f + b * tsum g = tsum (fun q c b' => a * f q c b' + b * g q c b').
Proof.
  intros. unfold tsum. rewrite <- !(rsum_mul_l RRing). rewrite <- (rsum_plus RRing). apply (rsum_ext RRing). intros q _.
  rewrite <- !(rsum_mul_l RRing). rewrite <- (rsum_plus RRing). apply (rsum_ext RRing). intros c _.
  rewrite <- !(rsum_mul_l RRing). rewrite <- (rsum_plus RRing). reflexivity.
Qed.
Lemma tsum_ext : forall f g, (forall q c b, (0 <= q)%Z -> In c (states L (q + 1)) -> In b (states L q) -> f q c b = g q c b) -> tsum f = tsum g.
Proof.
  intros f g H. unfold tsum. apply (rsum_ext RRing). intros q Hq. apply (rsum_ext RRing). intros c Hc. apply (rsum_ext RRing). intros b Hb.
  apply H; auto. apply charges1_in in Hq. lia.
Qed.
Lemma tsum_nonpos : forall f, (forall q c b, (0 <= q)%Z -> In c (states L (q + 1)) -> In b (states L q) -> f q c b <= 0) -> tsum f <= 0.
Proof.
  intros f H. assert (X : 0 <= tsum (fun q c b => - f q c b)).
  { unfold tsum. apply rsum_nonneg. intros q Hq. apply rsum_nonneg. intros c Hc. apply rsum_nonneg. intros b Hb. apply charges1_in in Hq.
    specialize (H q c b ltac:(lia) Hc Hb). lra. }
  replace (tsum f) with (- tsum (fun q c b => - f q c b)); [lra|].
  pose proof (tsum_lin (-1) (fun q c b => - f q c b) 0 (fun q c b => 0)) as Y.
  replace (- tsum (fun q c b => - f q c b)) with (-1 * tsum (fun q c b => - f q c b) + 0 * tsum (fun _ _ _ => 0)) by ring.
  rewrite Y. apply tsum_ext. intros. ring.
Qed.

Definition lnp (b : nat) : R := let p := phi (ind0 L b b (Z.of_nat (N b))) in if Rlt_dec 0 p then ln p else 0.

(** a transition with a nonzero rate fills its final state *)
Lemma filled : forall l s t cs ct, (l < nl)%nat -> (0 <= cs)%Z -> (0 <= ct)%Z -> In s (states L cs) -> In t (states L ct) ->
  0 < golden l s t -> 0 < phi (ind0 L t t ct) -> 0 < phi (ind0 L s s cs).
Proof.
  intros l s t cs ct Hl Hcs Hct Hs Ht G P.
  destruct (state_ind n name si L Hn Hix SY s cs Hcs Hs) as (A1 & A2), (state_ind n name si L Hn Hix SY t ct Hct Ht) as (B1 & B2).
  assert (Hne : s <> t). { intros ->. rewrite (golden_self n si Hn) in G. lra. }
  assert (RM : rate_matrix (ly_npauli L) (entries kern)).
  { split; [|apply (C23_pauli_columns RRing n name si L Hn Hix SY)].
    intros i j Hi Hj. now apply (C26_signs n name si L Hn Hix SY nl T E mu tl dm dp it HT i j Hi Hj). }
  rewrite <- A2. rewrite <- B2 in P.
  apply (steady_spread (ly_npauli L) (entries kern) RM (fun i => phi (Z.of_nat i))) with (i := Z.to_nat (ind0 L t t ct)); auto.
  - intros i Hi. destruct (lo_surj L LO i Hi) as (b & c & Hc & Hb & <-). now apply POS.
  - apply (lead_step _ _ _ (Z.to_nat (ind0 L t t ct))); auto; [now constructor| |].
    + intros E0. apply Hne. destruct (lo_inj L LO s s cs t t ct) as (_ & [[A _]|[A _]]); auto; lia.
    + unfold entries. rewrite A2, B2. rewrite (C26_entries n name si L Hn Hix SY nl T E mu tl dm dp it s cs t ct) by auto.
      destruct (Nat.eq_dec s t); [contradiction|]. apply Rgt_not_eq. eapply Rlt_le_trans; [exact G|].
      apply (sumR_term nl (fun l => golden l s t)); auto. intros i _. now apply golden_nonneg.
Qed.

Hypothesis GU : forall l q c b, (l < nl)%nat -> (0 <= q)%Z -> In c (states L (q + 1)) -> In b (states L q) -> (E c - E b - mu l) / tl l <= cut.

Lemma flow_gap : forall l q c b, (l < nl)%nat -> (0 <= q)%Z -> In c (states L (q + 1)) -> In b (states L q) ->
  ((E c - E b - mu l) / tl l + lnp c - lnp b) * flow l c b q <= 0.
Proof.
  intros l q c b Hl Hq Hc Hb. pose proof (GU l q c b Hl Hq Hc Hb) as G.
  rewrite (flow_val n name si L Hn Hix SY) by auto.
  destruct (C36_func_pauli (E c - E b) (mu l) (tl l) (dm l) (dp l) it) as ((F0 & _) & (S0 & _) & _ & _ & DB & _).
  specialize (DB G). unfold fpauli in *. set (r := func_pauli _ _ _ _ _ _) in *. set (a := (E c - E b - mu l) / tl l) in *.
  pose proof (x_nonneg T HT l c b) as X0.
  assert (Nc : Z.of_nat (N c) = (q + 1)%Z) by (rewrite (CH (q + 1)%Z c) by (auto; lia); lia).
  assert (Nb : Z.of_nat (N b) = q) by (rewrite (CH q b) by (auto; lia); lia).
  pose proof (POS c (q + 1)%Z ltac:(lia) Hc) as Pc. pose proof (POS b q Hq Hb) as Pb.
  assert (G1 : golden l c b = x_of T l c b * fst r).
  { unfold PropRates.golden. rewrite (proj2 (Nat.eqb_eq (N c) (S (N b)))) by lia. reflexivity. }
  assert (G2 : golden l b c = x_of T l c b * snd r).
  { unfold PropRates.golden. rewrite (proj2 (Nat.eqb_neq (N b) (S (N c)))), (proj2 (Nat.eqb_eq (N c) (S (N b)))) by lia. rewrite (x_sym T l b c). reflexivity. }
  pose proof (exp_pos (- a)) as EP.
  unfold lnp. rewrite Nc, Nb.
  set (pc := phi (ind0 L c c (q + 1))) in *. set (pb := phi (ind0 L b b q)) in *.
  destruct (Rle_lt_or_eq_dec 0 (x_of T l c b * snd r)) as [W|W]; [now apply Rmult_le_pos| |].
  2:{ assert (Z0 : x_of T l c b * (fst r * pb - snd r * pc) = 0).
      { rewrite DB. replace (x_of T l c b * (exp (- a) * snd r * pb - snd r * pc)) with ((x_of T l c b * snd r) * (exp (- a) * pb - pc)) by ring. rewrite <- W. ring. }
      rewrite Z0. lra. }
  assert (W' : 0 < x_of T l c b * fst r) by (rewrite DB; replace (x_of T l c b * (exp (- a) * snd r)) with (exp (- a) * (x_of T l c b * snd r)) by ring; now apply Rmult_lt_0_compat).
  assert (FB : 0 < pc -> 0 < pb). { intros P. apply (filled l b c q (q + 1)%Z); auto; [lia|rewrite G2; auto]. }
  assert (FC : 0 < pb -> 0 < pc). { intros P. apply (filled l c b (q + 1)%Z q); auto; [lia|rewrite G1; auto]. }
  replace (x_of T l c b * (fst r * pb - snd r * pc)) with ((x_of T l c b * snd r) * (exp (- a) * pb - pc)) by (rewrite DB; ring).
  destruct (Rlt_dec 0 pc) as [Pc'|Pc'], (Rlt_dec 0 pb) as [Pb'|Pb']; try tauto.
  - pose proof (ln_gap pb pc a Pb' Pc') as LG.
    replace ((a + ln pc - ln pb) * (x_of T l c b * snd r * (exp (- a) * pb - pc))) with ((x_of T l c b * snd r) * ((a + ln pc - ln pb) * (exp (- a) * pb - pc))) by ring.
    nra.
  - replace pc with 0 by lra. replace pb with 0 by lra. lra.
Qed.

Theorem C70_second_law : entropy_flow nl heat tl <= 0.
Proof.
  unfold entropy_flow.
  assert (A : rsum (fun l => heat l / tl l : RRing) (leads nl) = rsum (fun l => heat l / tl l + pauli_energy_current RRing L phi pf lnp l : RRing) (leads nl)).
  { rewrite (rsum_plus RRing). destruct (C24_pauli_currents RRing n name si L Hn Hix SY nl pf phi lnp) as (_ & _ & Z & _).
    destruct (Z ST) as (_ & ->). rring. }
  rewrite A. assert (X : 0 <= rsum (fun l => - (heat l / tl l + pauli_energy_current RRing L phi pf lnp l) : RRing) (leads nl)).
  2:{ rewrite (rsum_opp RRing) in X. change (@ropp RRing) with Ropp in X. lra. }
  apply rsum_nonneg. intros l Hl. unfold leads in Hl. apply in_seq in Hl.
  assert (Y : heat l / tl l + pauli_energy_current RRing L phi pf lnp l = tsum (fun q c b => ((E c - E b - mu l) / tl l + lnp c - lnp b) * flow l c b q)).
  { unfold heat_of, pauli_energy_current, pauli_current. change (@rsub RRing) with Rminus. change (@rmul RRing) with Rmult. change (@ropp RRing) with Ropp.
    match goal with |- (?e0 - ?c0 * _) / _ + ?p0 = _ =>
      change e0 with (tsum (fun q c b => - (E b - E c) * flow l c b q)); change c0 with (tsum (fun q c b => flow l c b q));
      change p0 with (tsum (fun q c b => - (lnp b - lnp c) * flow l c b q)) end.
    replace ((tsum (fun q c b => - (E b - E c) * flow l c b q) - tsum (fun q c b => flow l c b q) * mu l) / tl l + tsum (fun q c b => - (lnp b - lnp c) * flow l c b q))
      with (1 * (/ tl l * tsum (fun q c b => - (E b - E c) * flow l c b q) + (- mu l / tl l) * tsum (fun q c b => flow l c b q)) + 1 * tsum (fun q c b => - (lnp b - lnp c) * flow l c b q))
      by (unfold Rdiv; ring).
    rewrite (tsum_lin (/ tl l)), (tsum_lin 1). apply tsum_ext. intros. unfold Rdiv. ring. }
  rewrite Y. assert (tsum (fun q c b => ((E c - E b - mu l) / tl l + lnp c - lnp b) * flow l c b q) <= 0); [|lra].
  apply tsum_nonpos. intros. apply flow_gap; auto; lia.
Qed.
(** the first law: the heat taken from the leads is the electrical work done on them *)
Theorem C70_first_law : rsum (heat : nat -> RRing) (leads nl) = - rsum (fun l => mu l * current l : RRing) (leads nl).
Proof.
  destruct (C24_pauli_currents RRing n name si L Hn Hix SY nl pf phi E) as (_ & _ & Z & _). destruct (Z ST) as (_ & Z2).
  unfold heat_of. rewrite (rsum_minus RRing), Z2.
  rewrite (rsum_ext RRing _ (fun l => mu l * current l : RRing) (fun l => rmul (current l) (mu l))); [rring|]. intros. rring.
Qed.
Theorem C70_joule : forall th, 0 < th -> (forall l, (l < nl)%nat -> tl l = th) -> 0 <= rsum (fun l => mu l * current l : RRing) (leads nl).
Proof.
  intros th Hth EQ. pose proof C70_second_law as S2. pose proof C70_first_law as F1. unfold entropy_flow in S2.
  rewrite (rsum_ext RRing _ _ (fun l => / th * heat l : RRing)) in S2.
  2:{ intros l Hl. apply in_seq in Hl. rewrite EQ by lia. unfold Rdiv. change (@eq R (heat l * / th) (/ th * heat l)). ring. }
  pose proof (rsum_mul_l RRing _ (heat : nat -> RRing) (/ th) (leads nl)) as M. change (@rmul RRing) with Rmult in M. rewrite M in S2.
  pose proof (Rinv_0_lt_compat th Hth). rewrite F1 in S2. nra.
Qed.
(** two leads: current flows down the bias, heat flows from hot to cold, and no engine beats Carnot *)
Theorem C70_two_leads : nl = 2%nat ->
  (0 < tl 0%nat -> tl 1%nat = tl 0%nat -> 0 <= (mu 0%nat - mu 1%nat) * current 0%nat) /\
  (0 < tl 1%nat < tl 0%nat -> mu 0%nat = mu 1%nat -> 0 <= heat 0%nat) /\
  (0 < tl 1%nat < tl 0%nat -> heat 0%nat + heat 1%nat <= (1 - tl 1%nat / tl 0%nat) * heat 0%nat).
Proof.
  intros E2. pose proof C70_second_law as S2. pose proof C70_first_law as F1. unfold entropy_flow in S2.
  destruct (C24_pauli_currents RRing n name si L Hn Hix SY nl pf phi E) as (_ & _ & Z & _). destruct (Z ST) as (Z1 & _). clear Z.
  pose proof C70_joule as JO. rewrite E2 in *. change (leads 2) with [0; 1]%nat in *. cbn [rsum] in *.
  change (@radd RRing) with Rplus in *. change (@r0 RRing) with 0 in *.
  set (c0 := pauli_current RRing L phi (pauli_fct L 2 T E mu tl dm dp it) 0%nat) in *. set (c1 := pauli_current RRing L phi (pauli_fct L 2 T E mu tl dm dp it) 1%nat) in *.
  set (h := heat_of RRing (pauli_current RRing L phi (pauli_fct L 2 T E mu tl dm dp it)) (pauli_energy_current RRing L phi (pauli_fct L 2 T E mu tl dm dp it) E) mu) in *.
  assert (C1 : c1 = - c0) by lra. split; [|split].
  - intros P EQ. specialize (JO (tl 0%nat) P). assert (X : forall l, (l < 2)%nat -> tl l = tl 0%nat) by (intros [|[|]] Hl; auto; lia).
    specialize (JO X). rewrite C1 in JO. lra.
  - intros (P1 & P2) EM. rewrite C1, EM in F1. assert (H1 : h 1%nat = - h 0%nat) by lra. rewrite H1 in S2.
    assert (X : h 0%nat * (tl 1%nat - tl 0%nat) / (tl 0%nat * tl 1%nat) <= 0).
    { replace (h 0%nat * (tl 1%nat - tl 0%nat) / (tl 0%nat * tl 1%nat)) with (h 0%nat / tl 0%nat + (- h 0%nat / tl 1%nat + 0)) by (field; lra). exact S2. }
    assert (Y : h 0%nat * (tl 1%nat - tl 0%nat) <= 0).
    { replace (h 0%nat * (tl 1%nat - tl 0%nat)) with ((h 0%nat * (tl 1%nat - tl 0%nat) / (tl 0%nat * tl 1%nat)) * (tl 0%nat * tl 1%nat)) by (field; lra).
      assert (0 < tl 0%nat * tl 1%nat) by (apply Rmult_lt_0_compat; lra). nra. }
    nra.
  - intros (P1 & P2). assert (X : (h 0%nat / tl 0%nat + (h 1%nat / tl 1%nat + 0)) * tl 1%nat <= 0) by nra.
    replace ((h 0%nat / tl 0%nat + (h 1%nat / tl 1%nat + 0)) * tl 1%nat) with (tl 1%nat / tl 0%nat * h 0%nat + h 1%nat) in X by (field; lra). lra.
Qed.
End Props.

(** the same for what solve_kern hands out *)
Section Solved.
Variables (n : nat) (name : string) (si : SI) (L : Lay).
Hypotheses (Hn : (1 <= n)%nat) (Hix : ix_of name n <> IxSsq) (SY : system n name si L).
Variables (nl : nat) (T : nat -> nat -> nat -> Cr) (E mu tl dm dp : nat -> R) (it : nat).
Hypothesis HT : hermitian RRing T.
Local Notation pf := (pauli_fct L nl T E mu tl dm dp it).
Local Notation kern := (kern_of RRing L (pauli_calls RRing L nl pf)).
Lemma solution_ok : forall r x, (0 <= r < Z.of_nat (ly_npauli L))%Z -> unique_solution L kern r -> solution L kern r x ->
  stationary RRing (ly_npauli L) kern x /\ forall b c, (0 <= c)%Z -> In b (states L c) -> 0 <= x (ind0 L b b c).
Proof.
  intros r x Hr U S. split.
  - apply (solution_steady n name si L Hn Hix SY kern) in S; [exact (proj1 S)|apply (C23_pauli_columns RRing n name si L Hn Hix SY)|auto].
  - intros b c Hc Hb. rewrite <- (occ_val n name si L Hn Hix SY) by auto.
    now apply (C69_probabilities n name si L Hn Hix SY nl T E mu tl dm dp it HT r Hr U x S).
Qed.
Theorem C70_solution : forall r x, (0 <= r < Z.of_nat (ly_npauli L))%Z -> unique_solution L kern r -> solution L kern r x ->
  (forall l q c b, (l < nl)%nat -> (0 <= q)%Z -> In c (states L (q + 1)) -> In b (states L q) -> (E c - E b - mu l) / tl l <= cut) ->
  entropy_flow nl (heat_of RRing (pauli_current RRing L x pf) (pauli_energy_current RRing L x pf E) mu) tl <= 0.
Proof.
  intros r x Hr U S GU. destruct (solution_ok r x Hr U S) as (A & B). now apply (C70_second_law n name si L Hn Hix SY nl T E mu tl dm dp it HT x).
Qed.
End Solved.

(** ** Examples *)
Example C70_case :
  let pf := pauli_fct ex_L 2 ry_T ry_E sx_mu sx_tl (fun _ => -100) (fun _ => 100) 0 in
  exists x, solution ex_L (kern_of RRing ex_L (pauli_calls RRing ex_L 2 pf)) 0 x /\ 0 < x 0%Z < 1 /\
  (forall l q c b, (l < 2)%nat -> (0 <= q)%Z -> In c (states ex_L (q + 1)) -> In b (states ex_L q) -> (ry_E c - ry_E b - sx_mu l) / sx_tl l <= cut) /\
  entropy_flow 2 (heat_of RRing (pauli_current RRing ex_L x pf) (pauli_energy_current RRing ex_L x pf ry_E) sx_mu) sx_tl <= 0.
Proof.
  intros pf. assert (Hix : ix_of "charge" 2 <> IxSsq) by discriminate. assert (H2 : (1 <= 2)%nat) by lia.
  destruct C69_case as (AC & x & SX & P & _). exists x. split; [exact SX|]. split; [exact P|].
  assert (GU : forall l q c b, (l < 2)%nat -> (0 <= q)%Z -> In c (states ex_L (q + 1)) -> In b (states ex_L q) -> (ry_E c - ry_E b - sx_mu l) / sx_tl l <= cut).
  { intros l q c b _ _ _ _. assert (A : forall b, (0 <= ry_E b <= 6)%R) by (intros [|[|[|]]]; simpl; lra).
    pose proof (A c). pose proof (A b). unfold cut. destruct l; simpl; lra. }
  split; [exact GU|]. assert (R0 : (0 <= 0 < Z.of_nat (ly_npauli ex_L))%Z) by (split; [lia|reflexivity]).
  apply (C70_solution 2 "charge" ex_si ex_L H2 Hix ex_system 2 ry_T ry_E sx_mu sx_tl (fun _ => -100) (fun _ => 100) 0 ry_herm 0 x R0); auto.
  apply (C69_connected 2 "charge" ex_si ex_L H2 Hix ex_system 2 ry_T ry_E sx_mu sx_tl (fun _ => -100) (fun _ => 100) 0 ry_herm 0 R0 AC).
Qed.

(** Beyond the overflow guard of fermi_func the law fails.  Two levels with an attraction of 20: level 1 couples to lead 0 (kT = 1/2),
    level 2 couples to lead 1 (kT = 1); no bias.  The electron cannot enter level 2 directly (720 kT), but it can with level 1 occupied
    (700 kT), so the four transitions run as a cycle that carries heat from the cold lead 0 to the hot lead 1. *)
Definition sy_E (b : nat) : R := match b with O => 0 | 1%nat => 200 | 2%nat => 720 | _ => 900 end.
Definition sy_pair (l a b : nat) : bool :=
  match l, a, b with
  | 0, 0, 1 | 0, 1, 0 | 0, 2, 3 | 0, 3, 2 => true
  | 1, 0, 2 | 1, 2, 0 | 1, 1, 3 | 1, 3, 1 => true
  | _, _, _ => false end%nat.
Definition sy_T (l a b : nat) : Cr := @mkC RRing (if sy_pair l a b then if (l =? 1)%nat && (3 <=? a + b)%nat then -1 else 1 else 0) 0.
Definition sy_tl (l : nat) : R := match l with O => 1/2 | _ => 1 end.
Definition sy_mu (l : nat) : R := 0.
Definition sy_pf := pauli_fct ex_L 2 sy_T sy_E sy_mu sy_tl (fun _ => 0) (fun _ => 0) 1.
Lemma sy_sym : forall l a b, sy_pair l a b = sy_pair l b a.
Proof. intros [|[|l]] [|[|[|[|a]]]] [|[|[|[|b]]]]; reflexivity. Qed.
Lemma sy_herm : hermitian RRing sy_T.
Proof.
  intros l a b. unfold sy_T. rewrite sy_sym, (Nat.add_comm a b). apply cplx_eq; rsimp; match goal with |- @eq _ ?u ?v => change (@eq R u v) end; lra.
Qed.
Lemma sy_x : forall l a b, x_of sy_T l a b = if sy_pair l a b then 1 else 0.
Proof.
  intros l a b. unfold x_of, sy_T. rewrite re_mul. cbn [re im]. rewrite (sy_sym l b a), (Nat.add_comm b a). rsimp.
  destruct (sy_pair l a b); [destruct ((l =? 1)%nat && (3 <=? a + b)%nat)|]; lra.
Qed.
Theorem C70_beyond_guard_refuted : exists x,
  solution ex_L (kern_of RRing ex_L (pauli_calls RRing ex_L 2 sy_pf)) 0 x /\
  unique_solution ex_L (kern_of RRing ex_L (pauli_calls RRing ex_L 2 sy_pf)) 0 /\
  (forall b c, (0 <= c)%Z -> In b (states ex_L c) -> 0 < occupation ex_L x b c) /\
  0 < entropy_flow 2 (heat_of RRing (pauli_current RRing ex_L x sy_pf) (pauli_energy_current RRing ex_L x sy_pf sy_E) sy_mu) sy_tl.
Proof.
  assert (Hix : ix_of "charge" 2 <> IxSsq) by discriminate. assert (H2 : (1 <= 2)%nat) by lia.
  assert (R0 : (0 <= 0 < Z.of_nat (ly_npauli ex_L))%Z) by (split; [lia|reflexivity]).
  assert (CU : 700 <= cut < 710) by (unfold cut; lra).
  assert (I : In 0%nat (cons_states ex_L) /\ In 1%nat (cons_states ex_L) /\ In 2%nat (cons_states ex_L) /\ In 3%nat (cons_states ex_L)) by (vm_compute; intuition auto).
  destruct I as (I0 & I1 & I2 & I3).
  assert (AC : all_connected ex_si ex_L 2 sy_T sy_E sy_mu sy_tl (fun _ => 0) (fun _ => 0) 1).
  { assert (X : forall s, In s (cons_states ex_L) -> (s = 0 \/ s = 1 \/ s = 2 \/ s = 3)%nat) by (intros s Hs; vm_compute in Hs; intuition auto).
    assert (A1 : chain ex_si ex_L 2 sy_T sy_E sy_mu sy_tl (fun _ => 0) (fun _ => 0) 1 0 1).
    { apply (chain_step _ _ _ _ _ _ _ _ _ _ _ 0 _ 0); auto; [apply chain_refl|]. apply Rgt_not_eq.
      apply (C69_coupled ex_si sy_T sy_E sy_mu sy_tl (fun _ => 0) (fun _ => 0) 1 sy_herm 0 1 0); auto; [rewrite sy_x; simpl; lra|simpl; unfold sy_mu; lra]. }
    assert (A2 : chain ex_si ex_L 2 sy_T sy_E sy_mu sy_tl (fun _ => 0) (fun _ => 0) 1 1 3).
    { apply (chain_step _ _ _ _ _ _ _ _ _ _ _ 1 _ 1); auto; [apply chain_refl|]. apply Rgt_not_eq.
      apply (C69_coupled ex_si sy_T sy_E sy_mu sy_tl (fun _ => 0) (fun _ => 0) 1 sy_herm 1 3 1); auto; [rewrite sy_x; simpl; lra|simpl; unfold sy_mu; lra]. }
    assert (A3 : chain ex_si ex_L 2 sy_T sy_E sy_mu sy_tl (fun _ => 0) (fun _ => 0) 1 3 2).
    { apply (chain_step _ _ _ _ _ _ _ _ _ _ _ 3 _ 0); auto; [apply chain_refl|]. apply Rgt_not_eq.
      apply (C69_coupled ex_si sy_T sy_E sy_mu sy_tl (fun _ => 0) (fun _ => 0) 1 sy_herm 0 3 2); auto; [rewrite sy_x; simpl; lra|simpl; unfold sy_mu; lra]. }
    assert (A4 : chain ex_si ex_L 2 sy_T sy_E sy_mu sy_tl (fun _ => 0) (fun _ => 0) 1 2 0).
    { apply (chain_step _ _ _ _ _ _ _ _ _ _ _ 2 _ 1); auto; [apply chain_refl|]. unfold golden. change (charge_of ex_si 0) with 0%nat. change (charge_of ex_si 2) with 1%nat.
      simpl (_ =? _)%nat. cbv iota. rewrite sy_x. change (sy_pair 1 0 2) with true. unfold fpauli. rewrite func_pauli_eq. cbv zeta.
      rewrite fermi_above by (simpl; unfold sy_mu; lra). change (in_band _ _ _ _ _ 1) with true. pose proof PI_RGT_0. cbn [snd]. lra. }
    assert (B : forall s, In s (cons_states ex_L) -> chain ex_si ex_L 2 sy_T sy_E sy_mu sy_tl (fun _ => 0) (fun _ => 0) 1 0 s /\ chain ex_si ex_L 2 sy_T sy_E sy_mu sy_tl (fun _ => 0) (fun _ => 0) 1 s 0).
    { pose proof (chain_trans _ _ _ _ _ _ _ _ _ _ _ _ _ A1 A2) as A13. pose proof (chain_trans _ _ _ _ _ _ _ _ _ _ _ _ _ A13 A3) as A12.
      pose proof (chain_trans _ _ _ _ _ _ _ _ _ _ _ _ _ A3 A4) as A30. pose proof (chain_trans _ _ _ _ _ _ _ _ _ _ _ _ _ A2 A30) as A10.
      intros s Hs. destruct (X s Hs) as [->|[->|[->| ->]]]; split; try apply chain_refl; auto. }
    intros s t Hs Ht. eapply chain_trans; [apply B|apply B]; auto. }
  destruct (C69_solvable 2 "charge" ex_si ex_L H2 Hix ex_system 2 sy_T sy_E sy_mu sy_tl (fun _ => 0) (fun _ => 0) 1 sy_herm 0 R0) as (x & SX & _).
  destruct (C69_connected 2 "charge" ex_si ex_L H2 Hix ex_system 2 sy_T sy_E sy_mu sy_tl (fun _ => 0) (fun _ => 0) 1 sy_herm 0 R0 AC) as (U & P).
  specialize (P x SX). fold sy_pf in SX, U. exists x. split; [exact SX|]. split; [exact U|]. split; [exact P|].
  destruct (solution_ok 2 "charge" ex_si ex_L H2 Hix ex_system 2 sy_T sy_E sy_mu sy_tl (fun _ => 0) (fun _ => 0) 1 sy_herm 0 x R0 U SX) as (ST & _).
  assert (P2 : 0 < x 2%Z).
  { specialize (P 2%nat 1%Z ltac:(lia) ltac:(vm_compute; auto)). rewrite (occ_val 2 "charge" ex_si ex_L H2 Hix ex_system) in P by (try lia; vm_compute; auto).
    exact P. }
  assert (FZ : forall l q c b, (l < 2)%nat -> (0 <= q)%Z -> In c (states ex_L (q + 1)) -> In b (states ex_L q) -> sy_pair l c b = false -> pauli_flow RRing ex_L x sy_pf l c b q = 0).
  { intros l q c b Hl Hq Hc Hb S. unfold sy_pf. rewrite (flow_val 2 "charge" ex_si ex_L H2 Hix ex_system) by auto. rewrite sy_x, S. rring. }
  assert (EC : forall e l, (l < 2)%nat -> pauli_energy_current RRing ex_L x sy_pf e l =
     (if (l =? 0)%nat then (e 1%nat - e 0%nat) * pauli_flow RRing ex_L x sy_pf 0 1 0 0 + (e 3%nat - e 2%nat) * pauli_flow RRing ex_L x sy_pf 0 3 2 1
      else (e 2%nat - e 0%nat) * pauli_flow RRing ex_L x sy_pf 1 2 0 0 + (e 3%nat - e 1%nat) * pauli_flow RRing ex_L x sy_pf 1 3 1 1)).
  { intros e l Hl. unfold pauli_energy_current. change (charges1 ex_L) with [0; 1]%Z. cbn [rsum]. change (states ex_L (0 + 1)) with [1; 2]%nat.
    change (states ex_L 0) with [0]%nat. change (states ex_L (1 + 1)) with [3]%nat. change (states ex_L 1) with [1; 2]%nat. cbn [rsum].
    assert (M : forall l, (l < 2)%nat ->
      (sy_pair l 1 0 = false -> pauli_flow RRing ex_L x sy_pf l 1 0 0 = 0) /\ (sy_pair l 2 0 = false -> pauli_flow RRing ex_L x sy_pf l 2 0 0 = 0) /\
      (sy_pair l 3 1 = false -> pauli_flow RRing ex_L x sy_pf l 3 1 1 = 0) /\ (sy_pair l 3 2 = false -> pauli_flow RRing ex_L x sy_pf l 3 2 1 = 0)).
    { intros k Hk. split; [|split; [|split]]; intros S; apply FZ; auto; try lia; vm_compute; auto. }
    destruct l as [|[|l]]; [| |lia].
    - destruct (M 0%nat Hl) as (_ & M2 & M3 & _). rewrite (M2 eq_refl), (M3 eq_refl). simpl (_ =? _)%nat. cbv iota. rring.
    - destruct (M 1%nat Hl) as (M1 & _ & _ & M4). rewrite (M1 eq_refl), (M4 eq_refl). simpl (_ =? _)%nat. cbv iota. rring. }
  assert (BAL : forall e : nat -> R, pauli_energy_current RRing ex_L x sy_pf e 0%nat + pauli_energy_current RRing ex_L x sy_pf e 1%nat = 0).
  { intros e. destruct (C24_pauli_currents RRing 2 "charge" ex_si ex_L H2 Hix ex_system 2 sy_pf x e) as (_ & _ & Z & _). destruct (Z ST) as (_ & Z2).
    change (leads 2) with [0; 1]%nat in Z2. cbn [rsum] in Z2. change (@radd RRing) with Rplus in Z2. change (@r0 RRing) with 0 in Z2. lra. }
  assert (J : pauli_flow RRing ex_L x sy_pf 1 2 0 0 < 0).
  { unfold sy_pf. rewrite (flow_val 2 "charge" ex_si ex_L H2 Hix ex_system) by (try lia; vm_compute; auto).
    rewrite sy_x. change (sy_pair 1 2 0) with true. unfold fpauli. rewrite func_pauli_eq. cbv zeta.
    rewrite fermi_above by (simpl; unfold sy_mu; lra). change (in_band _ _ _ _ _ 1) with true. pose proof PI_RGT_0. cbn [fst snd].
    change (ind0 ex_L 2 2 (0 + 1)) with 2%Z. assert (0 < 2 * PI * x 2%Z) by (apply Rmult_lt_0_compat; lra). lra. }
  unfold entropy_flow. change (leads 2) with [0; 1]%nat. cbn [rsum]. change (@radd RRing) with Rplus. change (@r0 RRing) with 0.
  pose proof (BAL sy_E) as B0. pose proof (BAL (fun b => if (b =? 1)%nat then 1 else 0)) as B1.
  pose proof (BAL (fun b => if (b =? 2)%nat then 1 else 0)) as B2. pose proof (BAL (fun b => if (b =? 3)%nat then 1 else 0)) as B3.
  rewrite (EC _ 0%nat), (EC _ 1%nat) in B0 by lia.
  rewrite (EC _ 0%nat), (EC _ 1%nat) in B1 by lia.
  rewrite (EC _ 0%nat), (EC _ 1%nat) in B2 by lia.
  rewrite (EC _ 0%nat), (EC _ 1%nat) in B3 by lia.
  unfold heat_of.
  change (@rsub RRing) with Rminus. change (@rmul RRing) with Rmult. rewrite (EC _ 0%nat), (EC _ 1%nat) by lia. unfold sy_mu, sy_tl. simpl in *.
  set (f1 := pauli_flow RRing ex_L x sy_pf 0 1 0 0) in *. set (f2 := pauli_flow RRing ex_L x sy_pf 0 3 2 1) in *.
  set (f3 := pauli_flow RRing ex_L x sy_pf 1 2 0 0) in *. set (f4 := pauli_flow RRing ex_L x sy_pf 1 3 1 1) in *. lra.
Qed.
Print Assumptions C70_first_law.
Print Assumptions C70_joule.
Print Assumptions C70_two_leads.
Print Assumptions C70_solution.
Print Assumptions C70_beyond_guard_refuted.
Print Assumptions C70_second_law.
