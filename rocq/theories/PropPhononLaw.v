(** Property C78: the stationary currents of the Pauli approach with phonon baths obey the laws of thermodynamics. *)
From Coq Require Import String List Arith Lia ZArith Bool Permutation Ring Reals Lra.
From Verif Require Import Base Bits Indexing DMIndex DMIndexProofs DMReach PropDMIndex CRing SpecFunc Layout Coherences Kernel KernelProofs
  PauliProofs CohProofs CohKernels CohCurrents PropKernel MatrixFree PropSolve MasterEq PropMaster KernelGen ElPh PropElPh Rates PropRates PropPhonon
  Markov PropStationary PropSecondLaw.
Import ListNotations.
Open Scope nat_scope.
Local Notation length := List.length.
Local Notation Cr := (Cx RRing).
Open Scope R_scope.

Section Props.
Variables (n : nat) (name : string) (si : SI) (L L2 : Lay).
Hypotheses (Hn : (1 <= n)%nat) (Hix : ix_of name n <> IxSsq) (ES : elph_system n name si L L2).
Let SY : system n name si L := proj1 (elph_system_facts n name si L L2 Hn Hix ES).
Let LO : layout L := system_layout n name si L Hn Hix SY.
Let CH := system_charge n name si L Hn Hix SY.
Local Notation N := (charge_of si).
Variables (nb : nat) (V : nat -> nat -> nat -> Cr) (E tph omm omp : nat -> R) (dos : nat -> R -> R) (eps : R).
Variables (nl : nat) (T : nat -> nat -> nat -> Cr) (mu tl dm dp : nat -> R) (it : nat).
Local Notation wp := (ph_fct L2 nb V E tph omm omp dos eps).
Local Notation pf := (pauli_fct L nl T E mu tl dm dp it).
Local Notation kern := (kern_of RRing L (elph_pauli_calls RRing L L2 nl nb pf wp)).
Local Notation G := (ph_golden si V E tph omm omp dos eps).

(** ** Specification *)
(** what the quantity [f] of the quantum dot gains per unit of time by the transitions a -> b that bath l causes; with f = E this is the
    energy taken from the bath (qmeq has no current for it) *)
Definition bath_gain (phi : Z -> R) (f : nat -> R) (l : nat) : R :=
  rsum (fun c => rsum (fun b => rsum (fun a => (f b - f a) * (G l b a * phi (ind0 L a a c)) : RRing) (states L c)) (states L c)) (charges L).

(** ** Balance of every quantity in the stationary state *)
Lemma gain_block : forall (phi : Z -> R) (f : nat -> R) l c,
  rsum (fun b => f b * rsum (fun a => G l b a * phi (ind0 L a a c) - G l a b * phi (ind0 L b b c) : RRing) (states L c) : RRing) (states L c) =
  rsum (fun b => rsum (fun a => (f b - f a) * (G l b a * phi (ind0 L a a c)) : RRing) (states L c)) (states L c).
Proof.
  intros phi f l c.
  rewrite (rsum_ext RRing _ _ (fun b => rsum (fun a => f b * (G l b a * phi (ind0 L a a c)) : RRing) (states L c) -
     rsum (fun a => f b * (G l a b * phi (ind0 L b b c)) : RRing) (states L c) : RRing)).
  2:{ intros b _. rewrite <- (rsum_minus RRing).
      match goal with |- _ * rsum ?u _ = _ => rewrite <- (rsum_mul_l RRing _ u (f b)) end.
      apply (rsum_ext RRing). intros a _. rring. }
  rewrite (rsum_minus RRing). rewrite (rsum_swap RRing _ _ (fun b a => f b * (G l a b * phi (ind0 L b b c)) : RRing)).
  rewrite <- (rsum_minus RRing). apply (rsum_ext RRing). intros b _. rewrite <- (rsum_minus RRing). apply (rsum_ext RRing). intros a _. rring.
Qed.
Lemma balance_of : forall phi f, stationary RRing (ly_npauli L) kern phi ->
  rsum (pauli_energy_current RRing L phi pf f) (leads nl) + rsum (bath_gain phi f : nat -> RRing) (leads nb) = 0.
Proof.
  intros phi f ST. destruct (C24_pauli_currents RRing n name si L Hn Hix SY nl pf phi f) as (_ & -> & _).
  assert (W : weighted_action RRing L (ly_npauli L) kern phi f = 0).
  { unfold weighted_action. apply (rsum_0 RRing). intros c Hc. apply charges_in in Hc. apply (rsum_0 RRing). intros b Hb.
    destruct (lo_diag L LO b c ltac:(lia) Hb) as (RB & _).
    replace (ind0 L b b c) with (Z.of_nat (Z.to_nat (ind0 L b b c))) by lia. rewrite ST by lia. rring. }
  rewrite <- W. unfold weighted_action, bath_gain.
  rewrite (rsum_swap RRing). change Rplus with (@radd RRing). rewrite <- (rsum_plus RRing). apply (rsum_ext RRing). intros c Hc. apply charges_in in Hc.
  rewrite (rsum_ext RRing _ (fun b => rmul (f b) (act RRing (ly_npauli L) kern phi (ind0 L b b c)))
    (fun b => radd (rmul (f b) (act RRing (ly_npauli L) (kern_of RRing L (pauli_calls RRing L nl pf)) phi (ind0 L b b c)))
       (rsum (fun l => f b * rsum (fun a => G l b a * phi (ind0 L a a c) - G l a b * phi (ind0 L b b c) : RRing) (states L c) : RRing) (leads nb)))).
  2:{ intros b Hb. rewrite (C50_rate_equation n name si L L2 Hn Hix ES) by (auto; lia).
      match goal with |- _ = radd _ (rsum (fun l => _ * ?u) _) => rewrite (rsum_mul_l RRing _ (fun l => u) (f b)) end.
      change (@rmul RRing) with Rmult. change (@radd RRing) with Rplus. apply Rmult_plus_distr_l. }
  rewrite (rsum_plus RRing). f_equal. symmetry. rewrite (rsum_swap RRing). apply (rsum_ext RRing). intros l _. apply gain_block.
Qed.

(** ** The laws *)
Hypotheses (HT : hermitian RRing T) (He : 0 < eps) (Ht : forall l, (l < nb)%nat -> 0 < tph l) (Hd : forall l x, 0 <= dos l x).
(** emission and absorption are related by the Boltzmann factor of the bath *)
Lemma G_balance : forall l a b c, (l < nb)%nat -> (0 <= c)%Z -> In a (states L c) -> In b (states L c) -> resolved si L E eps (tph l) ->
  G l b a = exp (- ((E b - E a) / tph l)) * G l a b.
Proof.
  intros l a b c Hl Hc Ha Hb RS. pose proof (Ht l Hl) as TP. unfold ph_golden.
  destruct (coherent_dec si b a) as [CC|CC]; destruct (coherent_dec si a b) as [CD|CD];
    [|exfalso; apply CD, coherent_sym, CC|exfalso; apply CC, coherent_sym, CD|ring].
  destruct (Nat.eq_dec b a) as [->|Hne]; [destruct (Nat.eq_dec a a); [ring|congruence]|].
  destruct (Nat.eq_dec a b) as [|_]; [congruence|]. unfold ph_rate. rewrite (xph_sym V l b a).
  destruct (Rtotal_order (E b) (E a)) as [LT|[EE|GT]].
  - pose proof (RS b a c Hc ltac:(repeat split; auto) LT) as R. replace (E b - E a) with (- (E a - E b)) by ring.
    rewrite elph_balance by (auto; lra). replace (- (- (E a - E b) / tph l)) with ((E a - E b) / tph l) by (field; lra). ring.
  - rewrite EE. replace (- ((E a - E a) / tph l)) with 0 by (field; lra). rewrite exp_0. ring.
  - pose proof (RS a b c Hc ltac:(repeat split; auto) GT) as R. replace (E a - E b) with (- (E b - E a)) by ring.
    rewrite elph_balance by (auto; lra).
    replace (exp (- ((E b - E a) / tph l)) * (xph V l a b * (exp ((E b - E a) / tph l) * func_pauli_elph (dos l) eps (tph l) (omm l) (omp l) (E b - E a))))
      with (exp (- ((E b - E a) / tph l)) * exp ((E b - E a) / tph l) * (xph V l a b * func_pauli_elph (dos l) eps (tph l) (omm l) (omp l) (E b - E a))) by ring.
    rewrite <- exp_plus. replace (- ((E b - E a) / tph l) + (E b - E a) / tph l) with 0 by ring. rewrite exp_0. ring.
Qed.

Variable phi : Z -> R.
Hypotheses (ST : stationary RRing (ly_npauli L) kern phi)
  (POS : forall b c, (0 <= c)%Z -> In b (states L c) -> 0 < phi (ind0 L b b c)).
Local Notation current := (pauli_current RRing L phi pf).
Local Notation energy := (pauli_energy_current RRing L phi pf E).
Local Notation heat := (heat_of RRing current energy mu).
Local Notation bath := (bath_gain phi E).
Local Notation flow := (pauli_flow RRing L phi pf).
Definition ph_lnp (b : nat) : R := ln (phi (ind0 L b b (Z.of_nat (N b)))).
Local Notation lnp := ph_lnp.

(** the first law: the heat taken from leads and baths is the electrical work done on the leads *)
Theorem C78_first_law :
  rsum (heat : nat -> RRing) (leads nl) + rsum (bath : nat -> RRing) (leads nb) = - rsum (fun l => mu l * current l : RRing) (leads nl).
Proof.
  pose proof (balance_of phi E ST) as B. unfold heat_of. rewrite (rsum_minus RRing).
  rewrite (rsum_ext RRing _ (fun l => mu l * current l : RRing) (fun l => rmul (current l) (mu l))) by (intros; rring).
  change (@rsub RRing) with Rminus. match goal with |- (?u - ?v) + ?w = _ => change (u - v + w = - v) end.
  match type of B with ?u + ?v = 0 => assert (X : forall k, u - k + v = - k) by (intros; lra) end. apply X.
Qed.

Hypothesis GU : forall l q c b, (l < nl)%nat -> (0 <= q)%Z -> In c (states L (q + 1)) -> In b (states L q) -> (E c - E b - mu l) / tl l <= cut.
Hypothesis RS : forall l, (l < nb)%nat -> resolved si L E eps (tph l).
Lemma ph_flow_gap : forall l q c b, (l < nl)%nat -> (0 <= q)%Z -> In c (states L (q + 1)) -> In b (states L q) ->
  ((E c - E b - mu l) / tl l + lnp c - lnp b) * flow l c b q <= 0.
Proof.
  intros l q c b Hl Hq Hc Hb. pose proof (GU l q c b Hl Hq Hc Hb) as GG.
  rewrite (flow_val n name si L Hn Hix SY) by auto.
  destruct (C36_func_pauli (E c - E b) (mu l) (tl l) (dm l) (dp l) it) as (_ & (S0 & _) & _ & _ & DB & _).
  specialize (DB GG). unfold fpauli in *. set (r := func_pauli _ _ _ _ _ _) in *. set (a := (E c - E b - mu l) / tl l) in *.
  pose proof (x_nonneg T HT l c b) as X0.
  assert (Nc : Z.of_nat (N c) = (q + 1)%Z) by (rewrite (CH (q + 1)%Z c) by (auto; lia); lia).
  assert (Nb : Z.of_nat (N b) = q) by (rewrite (CH q b) by (auto; lia); lia).
  pose proof (POS c (q + 1)%Z ltac:(lia) Hc) as Pc. pose proof (POS b q Hq Hb) as Pb.
  unfold ph_lnp. rewrite Nc, Nb. set (pc := phi (ind0 L c c (q + 1))) in *. set (pb := phi (ind0 L b b q)) in *.
  pose proof (ln_gap pb pc a Pb Pc) as LG.
  replace ((a + ln pc - ln pb) * (x_of T l c b * (fst r * pb - snd r * pc))) with ((x_of T l c b * snd r) * ((a + ln pc - ln pb) * (exp (- a) * pb - pc))) by (rewrite DB; ring).
  assert (0 <= x_of T l c b * snd r) by now apply Rmult_le_pos. nra.
Qed.
Lemma lead_gap : forall l, (l < nl)%nat -> heat l / tl l + pauli_energy_current RRing L phi pf lnp l <= 0.
Proof.
  intros l Hl.
  assert (Y : heat l / tl l + pauli_energy_current RRing L phi pf lnp l = tsum L (fun q c b => ((E c - E b - mu l) / tl l + lnp c - lnp b) * flow l c b q)).
  { unfold heat_of, pauli_energy_current, pauli_current. change (@rsub RRing) with Rminus. change (@rmul RRing) with Rmult. change (@ropp RRing) with Ropp.
    match goal with |- (?e0 - ?c0 * _) / _ + ?p0 = _ =>
      change e0 with (tsum L (fun q c b => - (E b - E c) * flow l c b q)); change c0 with (tsum L (fun q c b => flow l c b q));
      change p0 with (tsum L (fun q c b => - (lnp b - lnp c) * flow l c b q)) end.
    replace ((tsum L (fun q c b => - (E b - E c) * flow l c b q) - tsum L (fun q c b => flow l c b q) * mu l) / tl l + tsum L (fun q c b => - (lnp b - lnp c) * flow l c b q))
      with (1 * (/ tl l * tsum L (fun q c b => - (E b - E c) * flow l c b q) + (- mu l / tl l) * tsum L (fun q c b => flow l c b q)) + 1 * tsum L (fun q c b => - (lnp b - lnp c) * flow l c b q))
      by (unfold Rdiv; ring).
    rewrite (tsum_lin L (/ tl l)), (tsum_lin L 1). apply (tsum_ext n L Hn). intros. unfold Rdiv. ring. }
  rewrite Y. apply (tsum_nonpos n L Hn). intros. apply ph_flow_gap; auto.
Qed.
Lemma bath_gap : forall l, (l < nb)%nat -> bath l / tph l + bath_gain phi lnp l <= 0.
Proof.
  intros l Hl. pose proof (Ht l Hl) as TP. set (u := fun b => E b / tph l + lnp b).
  assert (Y : bath l / tph l + bath_gain phi lnp l = bath_gain phi u l).
  { unfold bath_gain. replace (rsum (fun c => rsum (fun b => rsum (fun a => (E b - E a) * (G l b a * phi (ind0 L a a c)) : RRing) (states L c)) (states L c)) (charges L) / tph l)
      with (/ tph l * rsum (fun c => rsum (fun b => rsum (fun a => (E b - E a) * (G l b a * phi (ind0 L a a c)) : RRing) (states L c)) (states L c)) (charges L)) by (unfold Rdiv; ring).
    change Rmult with (@rmul RRing) at 1. rewrite <- (rsum_mul_l RRing). change Rplus with (@radd RRing). rewrite <- (rsum_plus RRing).
    apply (rsum_ext RRing). intros c _. rewrite <- (rsum_mul_l RRing), <- (rsum_plus RRing). apply (rsum_ext RRing). intros b _.
    rewrite <- (rsum_mul_l RRing), <- (rsum_plus RRing). apply (rsum_ext RRing). intros a _. unfold u.
    match goal with |- @eq _ ?x ?y => change (@eq R x y) end. change (@rmul RRing) with Rmult. change (@radd RRing) with Rplus. unfold Rdiv. ring. }
  rewrite Y. clear Y. unfold bath_gain.
  assert (X : 0 <= rsum (fun c => - rsum (fun b => rsum (fun a => (u b - u a) * (G l b a * phi (ind0 L a a c)) : RRing) (states L c)) (states L c) : RRing) (charges L)).
  2:{ rewrite (rsum_opp RRing) in X. change (@ropp RRing) with Ropp in X. lra. }
  apply rsum_nonneg. intros c Hc. apply charges_in in Hc.
  set (S := rsum (fun b => rsum (fun a => (u b - u a) * (G l b a * phi (ind0 L a a c)) : RRing) (states L c)) (states L c)).
  assert (S2 : S + S = rsum (fun b => rsum (fun a => (u b - u a) * (G l b a * phi (ind0 L a a c) - G l a b * phi (ind0 L b b c)) : RRing) (states L c)) (states L c)).
  { unfold S at 2. rewrite (rsum_swap RRing). unfold S. change Rplus with (@radd RRing). rewrite <- (rsum_plus RRing). apply (rsum_ext RRing). intros b _.
    rewrite <- (rsum_plus RRing). apply (rsum_ext RRing). intros a _. match goal with |- @eq _ ?x ?y => change (@eq R x y) end. change (@radd RRing) with Rplus. ring. }
  assert (Q : 0 <= rsum (fun b => - rsum (fun a => (u b - u a) * (G l b a * phi (ind0 L a a c) - G l a b * phi (ind0 L b b c)) : RRing) (states L c) : RRing) (states L c)).
  { apply rsum_nonneg. intros b Hb.
    assert (Q : 0 <= rsum (fun a => - ((u b - u a) * (G l b a * phi (ind0 L a a c) - G l a b * phi (ind0 L b b c))) : RRing) (states L c)).
    2:{ rewrite (rsum_opp RRing) in Q. exact Q. }
    apply rsum_nonneg. intros a Ha. rewrite (G_balance l a b c) by (auto; lia).
    pose proof (ph_golden_nonneg si nb V E tph omm omp dos eps He Ht Hd l a b Hl) as G0.
    assert (Na : Z.of_nat (N a) = c) by (rewrite (CH c a) by (auto; lia); lia).
    assert (Nb : Z.of_nat (N b) = c) by (rewrite (CH c b) by (auto; lia); lia).
    unfold u, ph_lnp. rewrite Na, Nb.
    pose proof (POS a c ltac:(lia) Ha) as Pa. pose proof (POS b c ltac:(lia) Hb) as Pb.
    set (pa := phi (ind0 L a a c)) in *. set (pb := phi (ind0 L b b c)) in *.
    pose proof (ln_gap pa pb ((E b - E a) / tph l) Pa Pb) as LG. set (g := G l a b) in *.
    replace (- ((E b / tph l + ln pb - (E a / tph l + ln pa)) * (exp (- ((E b - E a) / tph l)) * g * pa - g * pb)))
      with (g * - (((E b - E a) / tph l + ln pb - ln pa) * (exp (- ((E b - E a) / tph l)) * pa - pb))) by (field; lra).
    apply Rmult_le_pos; auto. lra. }
  rewrite (rsum_opp RRing) in Q. change (@ropp RRing) with Ropp in Q. rewrite <- S2 in Q. lra.
Qed.

(** the second law: the entropy of leads and baths together does not decrease *)
Theorem C78_second_law : entropy_flow nl heat tl + entropy_flow nb bath tph <= 0.
Proof.
  unfold entropy_flow. pose proof (balance_of phi lnp ST) as B.
  assert (X : 0 <= rsum (fun l => - (heat l / tl l + pauli_energy_current RRing L phi pf lnp l) : RRing) (leads nl)).
  { apply rsum_nonneg. intros l Hl. apply in_seq in Hl. pose proof (lead_gap l ltac:(lia)). lra. }
  assert (Y : 0 <= rsum (fun l => - (bath l / tph l + bath_gain phi lnp l) : RRing) (leads nb)).
  { apply rsum_nonneg. intros l Hl. apply in_seq in Hl. pose proof (bath_gap l ltac:(lia)). lra. }
  rewrite (rsum_opp RRing), (rsum_plus RRing) in X. rewrite (rsum_opp RRing), (rsum_plus RRing) in Y.
  change (@ropp RRing) with Ropp in X, Y. change (@radd RRing) with Rplus in X, Y. lra.
Qed.
Lemma flow_const : forall (q : nat -> R) t k th, (forall l, (l < k)%nat -> t l = th) -> entropy_flow k q t = / th * rsum (q : nat -> RRing) (leads k).
Proof.
  clear. intros q t k th EQ. unfold entropy_flow. pose proof (rsum_mul_l RRing _ (q : nat -> RRing) (/ th) (leads k)) as M.
  change (@rmul RRing) with Rmult in M. rewrite <- M. apply (rsum_ext RRing). intros l Hl. apply in_seq in Hl. rewrite EQ by lia.
  match goal with |- @eq _ ?x ?y => change (@eq R x y) end. unfold Rdiv. ring.
Qed.
(** leads at one temperature [th], baths at one temperature [tb]: the electrical power got out of the heat of the baths is at most Carnot's *)
Theorem C78_carnot : forall th tb, 0 < th -> 0 < tb -> (forall l, (l < nl)%nat -> tl l = th) -> (forall l, (l < nb)%nat -> tph l = tb) ->
  - rsum (fun l => mu l * current l : RRing) (leads nl) <= (1 - th / tb) * rsum (bath : nat -> RRing) (leads nb).
Proof.
  intros th tb H1 H2 E1 E2. pose proof C78_second_law as S2. pose proof C78_first_law as F1.
  rewrite (flow_const _ _ _ th E1), (flow_const _ _ _ tb E2) in S2. rewrite <- F1.
  match type of S2 with / th * ?h + / tb * ?q <= 0 => assert (X : h <= - (th / tb) * q) end.
  { match type of S2 with / th * ?h + / tb * ?q <= 0 =>
      assert (X : th * (/ th * h + / tb * q) <= 0) by nra; replace (th * (/ th * h + / tb * q)) with (h + th / tb * q) in X by (field; lra); lra end. }
  lra.
Qed.
(** leads and baths at one temperature: no electrical power is produced *)
Theorem C78_joule : forall th, 0 < th -> (forall l, (l < nl)%nat -> tl l = th) -> (forall l, (l < nb)%nat -> tph l = th) ->
  0 <= rsum (fun l => mu l * current l : RRing) (leads nl).
Proof.
  intros th H1 E1 E2. pose proof (C78_carnot th th H1 H1 E1 E2) as X. replace (1 - th / th) with 0 in X by (field; lra). lra.
Qed.
(** two leads: phonons at the temperature of the leads cannot drive a current against the bias *)
Theorem C78_two_leads : forall th, nl = 2%nat -> 0 < th -> (forall l, (l < nl)%nat -> tl l = th) -> (forall l, (l < nb)%nat -> tph l = th) ->
  0 <= (mu 0%nat - mu 1%nat) * current 0%nat.
Proof.
  intros th E2 H1 T1 T2. pose proof (C78_joule th H1 T1 T2) as J.
  assert (Z : rsum (current : nat -> RRing) (leads nl) = 0) by exact (proj1 (C30_currents RRing n name si L L2 Hn Hix ES nl nb 0 phi) pf wp ST).
  assert (LD : leads nl = [0; 1]%nat) by (rewrite E2; reflexivity). rewrite LD in J, Z. cbn [rsum] in J, Z.
  change (@radd RRing) with Rplus in J, Z. change (@r0 RRing) with 0 in J, Z.
  assert (G0 : forall u v m0 m1 : R, u + (v + 0) = 0 -> 0 <= m0 * u + (m1 * v + 0) -> 0 <= (m0 - m1) * u).
  { intros u v m0 m1 Y1 Y2. replace v with (- u) in Y2 by lra. lra. }
  exact (G0 _ _ _ _ Z J).
Qed.
End Props.

(** the same for what solve_kern hands out *)
Section Solved.
Variables (n : nat) (name : string) (si : SI) (L L2 : Lay).
Hypotheses (Hn : (1 <= n)%nat) (Hix : ix_of name n <> IxSsq) (ES : elph_system n name si L L2).
Let SY : system n name si L := proj1 (elph_system_facts n name si L L2 Hn Hix ES).
Variables (nb : nat) (V : nat -> nat -> nat -> Cr) (E tph omm omp : nat -> R) (dos : nat -> R -> R) (eps : R).
Variables (nl : nat) (T : nat -> nat -> nat -> Cr) (mu tl dm dp : nat -> R) (it : nat).
Hypotheses (HT : hermitian RRing T) (He : 0 < eps) (Ht : forall l, (l < nb)%nat -> 0 < tph l) (Hd : forall l x, 0 <= dos l x).
Local Notation wp := (ph_fct L2 nb V E tph omm omp dos eps).
Local Notation pf := (pauli_fct L nl T E mu tl dm dp it).
Local Notation kern := (kern_of RRing L (elph_pauli_calls RRing L L2 nl nb pf wp)).
Lemma ph_solution_ok : forall r x, (0 <= r < Z.of_nat (ly_npauli L))%Z -> all_connected si L nl T E mu tl dm dp it -> solution L kern r x ->
  stationary RRing (ly_npauli L) kern x /\ forall b c, (0 <= c)%Z -> In b (states L c) -> 0 < x (ind0 L b b c).
Proof.
  intros r x Hr AC S. split.
  - apply (solution_steady n name si L Hn Hix SY kern) in S; [exact (proj1 S)|apply (ph_columns n name si L L2 Hn Hix ES)|auto].
  - intros b c Hc Hb. rewrite <- (occ_val n name si L Hn Hix SY) by auto.
    now apply (C69_phonons_connected n name si L L2 Hn Hix ES nb V E tph omm omp dos eps nl T mu tl dm dp it HT He Ht Hd r Hr AC).
Qed.
Theorem C78_solution : forall r x, (0 <= r < Z.of_nat (ly_npauli L))%Z -> all_connected si L nl T E mu tl dm dp it -> solution L kern r x ->
  (forall l q c b, (l < nl)%nat -> (0 <= q)%Z -> In c (states L (q + 1)) -> In b (states L q) -> (E c - E b - mu l) / tl l <= cut) ->
  (forall l, (l < nb)%nat -> resolved si L E eps (tph l)) ->
  entropy_flow nl (heat_of RRing (pauli_current RRing L x pf) (pauli_energy_current RRing L x pf E) mu) tl +
  entropy_flow nb (bath_gain si L V E tph omm omp dos eps x E) tph <= 0.
Proof.
  intros r x Hr AC S GU RS. destruct (ph_solution_ok r x Hr AC S) as (A & B).
  now apply (C78_second_law n name si L L2 Hn Hix ES nb V E tph omm omp dos eps nl T mu tl dm dp it HT He Ht Hd x).
Qed.
End Solved.

(** ** Example: a biased double dot with leads at kT = 1/2 and 1 and a phonon bath at kT = 1/2 *)
Example C78_case :
  let pf := pauli_fct ex_L 2 ry_T ry_E sx_mu sx_tl (fun _ => -100) (fun _ => 100) 0 in
  exists x, solution ex_L (kern_of RRing ex_L (elph_pauli_calls RRing ex_L ex_L2 2 1 pf (rz_wp ry_E))) 0 x /\
  (0 < occupation ex_L x 0 0 /\ 0 < occupation ex_L x 1 1 /\ 0 < occupation ex_L x 2 1 /\ 0 < occupation ex_L x 3 2) /\
  entropy_flow 2 (heat_of RRing (pauli_current RRing ex_L x pf) (pauli_energy_current RRing ex_L x pf ry_E) sx_mu) sx_tl +
  entropy_flow 1 (bath_gain ex_si ex_L rz_V ry_E (fun _ => 1/2) (fun _ => 0) (fun _ => 50) (fun _ _ => 1) rz_eps x ry_E) (fun _ => 1/2) <= 0.
Proof.
  intros pf. assert (Hix : ix_of "charge" 2 <> IxSsq) by discriminate. assert (H2 : (1 <= 2)%nat) by lia.
  assert (R0 : (0 <= 0 < Z.of_nat (ly_npauli ex_L))%Z) by (split; [lia|reflexivity]).
  destruct C69_phonons_case as (x & SX & P). exists x. split; [exact SX|]. split; [exact P|].
  destruct C69_case as (AC & _).
  apply (C78_solution 2 "charge" ex_si ex_L ex_L2 H2 Hix C30_system 1 rz_V ry_E (fun _ => 1/2) (fun _ => 0) (fun _ => 50) (fun _ _ => 1) rz_eps
    2 ry_T sx_mu sx_tl (fun _ => -100) (fun _ => 100) 0 ry_herm ltac:(unfold rz_eps; lra) ltac:(intros; lra) ltac:(intros; lra) 0 x R0 AC SX).
  - intros l q c b _ _ _ _. assert (A : forall b, (0 <= ry_E b <= 6)%R) by (intros [|[|[|]]]; simpl; lra).
    pose proof (A c). pose proof (A b). unfold cut. destruct l; simpl; lra.
  - intros l _ s t c Hc CN LT. destruct (rz_connected s t c Hc CN) as (_ & [(-> & ->)|(-> & ->)]); simpl in *; unfold rz_eps; lra.
Qed.

(** Two levels closer than eps kT: the bath acts like a colder one (C50_unresolved_refuted), and although leads and bath have one temperature,
    a current flows against the bias.  Level 1 couples to lead 0, level 2 to lead 1; the levels are eps/4 apart, the bias is eps/8. *)
Definition tx_E (b : nat) : R := match b with O | 1%nat => 0 | _ => rz_eps / 4 end.
Definition tx_mu (l : nat) : R := match l with O => rz_eps / 8 | _ => 0 end.
Definition tx_pf := pauli_fct ex_L 2 sy_T tx_E tx_mu (fun _ => 1/2) (fun _ => 0) (fun _ => 0) 1.
Definition tx_kern := kern_of RRing ex_L (elph_pauli_calls RRing ex_L ex_L2 2 1 tx_pf (rz_wp tx_E)).

Lemma pump : forall S r1 s1 r2 s2 p0 p1 p2 p3 g ee, 0 < S -> 0 <= r1 -> 0 <= r2 -> 0 <= s1 -> 0 <= s2 -> r1 + s1 = S -> r2 + s2 = S ->
  0 < g -> 0 < ee -> r1 * s2 < ee * (r2 * s1) -> p0 + p1 + p2 + p3 = 1 ->
  let J := g * (ee * p2 - p1) in
  (r1 * p0 - s1 * p1) - (r2 * p1 - s2 * p3) + J = 0 -> (r2 * p0 - s2 * p2) - (r1 * p2 - s1 * p3) - J = 0 ->
  (r1 * p2 - s1 * p3) + (r2 * p1 - s2 * p3) = 0 ->
  (r1 * p0 - s1 * p1) + (r1 * p2 - s1 * p3) < 0.
Proof.
  intros S r1 s1 r2 s2 p0 p1 p2 p3 g ee HS R1 R2 S1 S2 E1 E2 Hg He K NM J B1 B2 B3.
  assert (I : (r1 * p0 - s1 * p1) + (r1 * p2 - s1 * p3) = - J) by lra. rewrite I. clear I.
  assert (A1 : S * (p1 + p3) = r1 + J) by (replace s1 with (S - r1) in * by lra; replace p0 with (1 - p1 - p2 - p3) in * by lra; lra).
  assert (A2 : S * (p2 + p3) = r2 - J) by (replace s2 with (S - r2) in * by lra; replace p0 with (1 - p1 - p2 - p3) in * by lra; lra).
  assert (A3 : 2 * S * p3 = r1 * (p2 + p3) + r2 * (p1 + p3)) by (replace s1 with (S - r1) in * by lra; replace s2 with (S - r2) in * by lra; lra).
  assert (A4 : 2 * (S * S) * p3 = 2 * (r1 * r2) + J * (r2 - r1)).
  { replace (2 * (S * S) * p3) with (S * (2 * S * p3)) by ring. rewrite A3.
    replace (S * (r1 * (p2 + p3) + r2 * (p1 + p3))) with (r1 * (S * (p2 + p3)) + r2 * (S * (p1 + p3))) by ring. rewrite A1, A2. ring. }
  assert (P1 : 2 * (S * S) * p1 = 2 * (r1 * s2) + J * (2 * S - r2 + r1)).
  { replace (2 * (S * S) * p1) with (2 * S * (S * (p1 + p3)) - 2 * (S * S) * p3) by ring. rewrite A1, A4. replace s2 with (S - r2) by lra. ring. }
  assert (P2 : 2 * (S * S) * p2 = 2 * (r2 * s1) - J * (2 * S + r2 - r1)).
  { replace (2 * (S * S) * p2) with (2 * S * (S * (p2 + p3)) - 2 * (S * S) * p3) by ring. rewrite A2, A4. replace s1 with (S - r1) by lra. ring. }
  destruct (Rlt_le_dec 0 J) as [|N]; [lra|]. exfalso.
  assert (X : 2 * (S * S) * (ee * p2 - p1) = 2 * (ee * (r2 * s1) - r1 * s2) + (- J) * (ee * (2 * S + r2 - r1) + (2 * S - r2 + r1))).
  { replace (2 * (S * S) * (ee * p2 - p1)) with (ee * (2 * (S * S) * p2) - 2 * (S * S) * p1) by ring. rewrite P1, P2. ring. }
  assert (C : 0 <= ee * (2 * S + r2 - r1) + (2 * S - r2 + r1)) by (assert (0 <= ee * (2 * S + r2 - r1)) by (apply Rmult_le_pos; lra); lra).
  assert (Q : 0 < 2 * (S * S) * (ee * p2 - p1)) by (rewrite X; assert (0 <= - J * (ee * (2 * S + r2 - r1) + (2 * S - r2 + r1))) by (apply Rmult_le_pos; lra); lra).
  assert (D : 0 < ee * p2 - p1).
  { destruct (Rlt_le_dec 0 (ee * p2 - p1)) as [|M]; auto. exfalso. assert (0 < S * S) by now apply Rmult_lt_0_compat. nra. }
  assert (0 < J) by (unfold J; now apply Rmult_lt_0_compat). lra.
Qed.
Lemma tx_connected : all_connected ex_si ex_L 2 sy_T tx_E tx_mu (fun _ => 1/2) (fun _ => 0) (fun _ => 0) 1.
Proof.
  assert (X : forall s, In s (cons_states ex_L) -> (s = 0 \/ s = 1 \/ s = 2 \/ s = 3)%nat) by (intros s Hs; vm_compute in Hs; intuition auto).
  assert (I : In 0%nat (cons_states ex_L) /\ In 1%nat (cons_states ex_L) /\ In 2%nat (cons_states ex_L) /\ In 3%nat (cons_states ex_L)) by (vm_compute; intuition auto).
  destruct I as (I0 & I1 & I2 & I3).
  assert (LK : forall l s t, (l < 2)%nat -> In s (cons_states ex_L) -> In t (cons_states ex_L) -> charge_of ex_si s = S (charge_of ex_si t) -> sy_pair l s t = true ->
    chain ex_si ex_L 2 sy_T tx_E tx_mu (fun _ => 1/2) (fun _ => 0) (fun _ => 0) 1 t s /\ chain ex_si ex_L 2 sy_T tx_E tx_mu (fun _ => 1/2) (fun _ => 0) (fun _ => 0) 1 s t).
  { intros l s t Hl Hs Ht HN SP.
    destruct (C69_coupled ex_si sy_T tx_E tx_mu (fun _ => 1/2) (fun _ => 0) (fun _ => 0) 1 sy_herm l s t) as (A & B); auto.
    - rewrite sy_x, SP. lra.
    - assert (A : forall b, 0 <= tx_E b <= 1) by (intros [|[|[|]]]; simpl; unfold rz_eps; lra). pose proof (A s). pose proof (A t).
      assert (M : 0 <= tx_mu l <= 1) by (destruct l; simpl; unfold rz_eps; lra). unfold cut. lra.
    - split; (eapply (chain_step _ _ _ _ _ _ _ _ _ _ _ _ _ l); [apply chain_refl|auto|auto|apply Rgt_not_eq; eassumption]). }
  destruct (LK 0 1 0 ltac:(lia) I1 I0 eq_refl eq_refl)%nat as (A1 & B1). destruct (LK 1 2 0 ltac:(lia) I2 I0 eq_refl eq_refl)%nat as (A2 & B2).
  destruct (LK 1 3 1 ltac:(lia) I3 I1 eq_refl eq_refl)%nat as (A3 & B3).
  assert (Z0 : forall s, In s (cons_states ex_L) -> chain ex_si ex_L 2 sy_T tx_E tx_mu (fun _ => 1/2) (fun _ => 0) (fun _ => 0) 1 0 s /\
                                                   chain ex_si ex_L 2 sy_T tx_E tx_mu (fun _ => 1/2) (fun _ => 0) (fun _ => 0) 1 s 0).
  { intros s Hs. destruct (X s Hs) as [->|[->|[->| ->]]]; split; try apply chain_refl; auto;
      [exact (chain_trans _ _ _ _ _ _ _ _ _ _ _ _ _ A1 A3)|exact (chain_trans _ _ _ _ _ _ _ _ _ _ _ _ _ B3 B1)]. }
  intros s t Hs Ht. eapply chain_trans; [apply Z0|apply Z0]; auto.
Qed.
Theorem C78_unresolved_refuted : exists x, solution ex_L tx_kern 0 x /\
  (forall b c, (0 <= c)%Z -> In b (states ex_L c) -> 0 < occupation ex_L x b c) /\
  0 < tx_mu 0 - tx_mu 1 /\ pauli_current RRing ex_L x tx_pf 0 < 0.
Proof.
  assert (Hix : ix_of "charge" 2 <> IxSsq) by discriminate. assert (H2 : (1 <= 2)%nat) by lia.
  assert (R0 : (0 <= 0 < Z.of_nat (ly_npauli ex_L))%Z) by (split; [lia|reflexivity]).
  assert (EP : 0 < rz_eps) by (unfold rz_eps; lra). assert (TP : forall l, (l < 1)%nat -> 0 < (fun _ : nat => 1/2) l) by (intros; lra).
  assert (DP : forall l x, 0 <= (fun (_ : nat) (_ : R) => 1) l x) by (intros; lra).
  destruct (C69_phonons_solvable 2 "charge" ex_si ex_L ex_L2 H2 Hix C30_system 1 rz_V tx_E (fun _ => 1/2) (fun _ => 0) (fun _ => 50) (fun _ _ => 1) rz_eps
    2 sy_T tx_mu (fun _ => 1/2) (fun _ => 0) (fun _ => 0) 1 sy_herm EP TP DP 0 R0) as (x & SX & _).
  exists x. split; [exact SX|]. split.
  { apply (proj2 (C69_phonons_connected 2 "charge" ex_si ex_L ex_L2 H2 Hix C30_system 1 rz_V tx_E (fun _ => 1/2) (fun _ => 0) (fun _ => 50) (fun _ _ => 1) rz_eps
      2 sy_T tx_mu (fun _ => 1/2) (fun _ => 0) (fun _ => 0) 1 sy_herm EP TP DP 0 R0 tx_connected) x SX). }
  split; [simpl; lra|].
  pose proof (proj1 (ph_solution_ok 2 "charge" ex_si ex_L ex_L2 H2 Hix C30_system 1 rz_V tx_E (fun _ => 1/2) (fun _ => 0) (fun _ => 50) (fun _ _ => 1) rz_eps
    2 sy_T tx_mu (fun _ => 1/2) (fun _ => 0) (fun _ => 0) 1 sy_herm EP TP DP 0 x R0 tx_connected SX)) as SS.
  apply (solution_steady 2 "charge" ex_si ex_L H2 Hix ex_system) in SX as (ST & NR);
    [|apply (ph_columns 2 "charge" ex_si ex_L ex_L2 H2 Hix C30_system)|auto].
  change (ly_npauli ex_L) with 4%nat in NR. rewrite !sumR_S, sumR_0 in NR. cbn [Z.of_nat Pos.of_succ_nat Pos.succ] in NR.
  assert (FV : forall l q c b, (l < 2)%nat -> (0 <= q)%Z -> In c (states ex_L (q + 1)) -> In b (states ex_L q) -> pauli_flow RRing ex_L x tx_pf l c b q =
    (if sy_pair l c b then 1 else 0) * (fst (fpauli tx_mu (fun _ => 1/2) (fun _ => 0) (fun _ => 0) 1 l (tx_E c - tx_E b)) * x (ind0 ex_L b b q) -
      snd (fpauli tx_mu (fun _ => 1/2) (fun _ => 0) (fun _ => 0) 1 l (tx_E c - tx_E b)) * x (ind0 ex_L c c (q + 1)))).
  { intros l q c b Hl Hq Hc Hb. unfold tx_pf. rewrite (flow_val 2 "charge" ex_si ex_L H2 Hix ex_system) by auto. now rewrite sy_x. }
  set (w1 := fpauli tx_mu (fun _ => 1/2) (fun _ => 0) (fun _ => 0) 1 0 0) in *.
  set (w2 := fpauli tx_mu (fun _ => 1/2) (fun _ => 0) (fun _ => 0) 1 1 (rz_eps / 4)) in *.
  assert (FF : forall l, (l < 2)%nat ->
     pauli_flow RRing ex_L x tx_pf l 1 0 0 = (if (l =? 0)%nat then fst w1 * x 0%Z - snd w1 * x 1%Z else 0) /\
     pauli_flow RRing ex_L x tx_pf l 2 0 0 = (if (l =? 0)%nat then 0 else fst w2 * x 0%Z - snd w2 * x 2%Z) /\
     pauli_flow RRing ex_L x tx_pf l 3 1 1 = (if (l =? 0)%nat then 0 else fst w2 * x 1%Z - snd w2 * x 3%Z) /\
     pauli_flow RRing ex_L x tx_pf l 3 2 1 = (if (l =? 0)%nat then fst w1 * x 2%Z - snd w1 * x 3%Z else 0)).
  { intros l Hl. rewrite !FV by (try lia; vm_compute; auto).
    change (ind0 ex_L 0 0 0) with 0%Z. change (ind0 ex_L 1 1 (0 + 1)) with 1%Z. change (ind0 ex_L 2 2 (0 + 1)) with 2%Z.
    change (ind0 ex_L 1 1 1) with 1%Z. change (ind0 ex_L 2 2 1) with 2%Z. change (ind0 ex_L 3 3 (1 + 1)) with 3%Z.
    change (tx_E 1 - tx_E 0) with (0 - 0). change (tx_E 2 - tx_E 0) with (rz_eps / 4 - 0). change (tx_E 3 - tx_E 1) with (rz_eps / 4 - 0).
    change (tx_E 3 - tx_E 2) with (rz_eps / 4 - rz_eps / 4). replace (0 - 0) with 0 by ring. replace (rz_eps / 4 - 0) with (rz_eps / 4) by ring.
    replace (rz_eps / 4 - rz_eps / 4) with 0 by ring.
    destruct l as [|[|l]]; [| |lia]; cbn [sy_pair Nat.eqb]; fold w1 w2; repeat split; match goal with |- @eq _ ?u ?v => change (@eq R u v) end; ring. }
  assert (EC : forall (e : nat -> R), rsum (pauli_energy_current RRing ex_L x tx_pf e) (leads 2) =
     (e 1%nat - e 0%nat) * (fst w1 * x 0%Z - snd w1 * x 1%Z) + (e 3%nat - e 2%nat) * (fst w1 * x 2%Z - snd w1 * x 3%Z) +
     (e 2%nat - e 0%nat) * (fst w2 * x 0%Z - snd w2 * x 2%Z) + (e 3%nat - e 1%nat) * (fst w2 * x 1%Z - snd w2 * x 3%Z)).
  { intros e. change (leads 2) with [0; 1]%nat. cbn [rsum]. unfold pauli_energy_current. change (charges1 ex_L) with [0; 1]%Z. cbn [rsum].
    change (states ex_L (0 + 1)) with [1; 2]%nat. change (states ex_L 0) with [0]%nat. change (states ex_L (1 + 1)) with [3]%nat. change (states ex_L 1) with [1; 2]%nat. cbn [rsum].
    destruct (FF 0%nat ltac:(lia)) as (-> & -> & -> & ->). destruct (FF 1%nat ltac:(lia)) as (-> & -> & -> & ->). cbn [Nat.eqb]. rring. }
  set (gg := func_pauli_elph (fun _ => 1) rz_eps (1/2) 0 50 (tx_E 2 - tx_E 1)).
  assert (GP : 0 < gg).
  { unfold gg, func_pauli_elph. cbv zeta. change (tx_E 2 - tx_E 1) with (rz_eps / 4 - 0).
    assert (Rmax (Rabs ((rz_eps / 4 - 0) / (1 / 2))) rz_eps * (if Rle_dec 0 (rz_eps / 4 - 0) then 1 else -1) = rz_eps) as ->.
    { rewrite Rabs_pos_eq by lra. rewrite Rmax_right by lra. destruct (Rle_dec 0 (rz_eps / 4 - 0)); lra. }
    assert (within (Rmax (0 / (1 / 2)) (9 / 10 * rz_eps)) rz_eps (50 / (1 / 2)) = true) as ->.
    { apply within_true. rewrite Rmax_right by lra. unfold rz_eps. lra. }
    pose proof (bose_pos rz_eps EP). pose proof PI_RGT_0. nra. }
  assert (XV : forall s t, xph rz_V 0 s t = 1) by (intros; unfold xph, rz_V; simpl; lra).
  assert (G21 : ph_golden ex_si rz_V tx_E (fun _ => 1/2) (fun _ => 0) (fun _ => 50) (fun _ _ => 1) rz_eps 0 2 1 = gg).
  { unfold ph_golden. destruct (coherent_dec ex_si 2 1) as [_|X]; [|exfalso; apply X, rz_coherent]. destruct (Nat.eq_dec 2 1) as [|_]; [lia|].
    unfold ph_rate. rewrite XV. fold gg. ring. }
  assert (G12 : ph_golden ex_si rz_V tx_E (fun _ => 1/2) (fun _ => 0) (fun _ => 50) (fun _ _ => 1) rz_eps 0 1 2 = exp rz_eps * gg).
  { unfold ph_golden. destruct (coherent_dec ex_si 1 2) as [_|X]; [|exfalso; apply X, rz_coherent]. destruct (Nat.eq_dec 1 2) as [|_]; [lia|].
    unfold ph_rate. rewrite XV. replace (tx_E 1 - tx_E 2) with (- (tx_E 2 - tx_E 1)) by ring.
    rewrite elph_unresolved by (simpl; unfold rz_eps; lra). fold gg. ring. }
  assert (BG : forall e : nat -> R, rsum (bath_gain ex_si ex_L rz_V tx_E (fun _ => 1/2) (fun _ => 0) (fun _ => 50) (fun _ _ => 1) rz_eps x e : nat -> RRing) (leads 1) =
     (e 1%nat - e 2%nat) * (gg * (exp rz_eps * x 2%Z - x 1%Z))).
  { intros e. change (leads 1) with [0]%nat. cbn [rsum]. unfold bath_gain. change (charges ex_L) with [0; 1; 2]%Z. cbn [rsum].
    change (states ex_L 0) with [0]%nat. change (states ex_L 1) with [1; 2]%nat. change (states ex_L 2) with [3]%nat. cbn [rsum].
    change (ind0 ex_L 1 1 1) with 1%Z. change (ind0 ex_L 2 2 1) with 2%Z. rewrite G12, G21. rring. }
  assert (BAL : forall e : nat -> R, rsum (pauli_energy_current RRing ex_L x tx_pf e) (leads 2) +
    rsum (bath_gain ex_si ex_L rz_V tx_E (fun _ => 1/2) (fun _ => 0) (fun _ => 50) (fun _ _ => 1) rz_eps x e : nat -> RRing) (leads 1) = 0).
  { intros e. apply (balance_of 2 "charge" ex_si ex_L ex_L2 H2 Hix C30_system 1 rz_V tx_E (fun _ => 1/2) (fun _ => 0) (fun _ => 50) (fun _ _ => 1) rz_eps
      2 sy_T tx_mu (fun _ => 1/2) (fun _ => 0) (fun _ => 0) 1 x e SS). }
  assert (CU : pauli_current RRing ex_L x tx_pf 0 = (fst w1 * x 0%Z - snd w1 * x 1%Z) + (fst w1 * x 2%Z - snd w1 * x 3%Z)).
  { unfold pauli_current. change (charges1 ex_L) with [0; 1]%Z. cbn [rsum]. change (states ex_L (0 + 1)) with [1; 2]%nat. change (states ex_L 0) with [0]%nat.
    change (states ex_L (1 + 1)) with [3]%nat. change (states ex_L 1) with [1; 2]%nat. cbn [rsum].
    destruct (FF 0%nat ltac:(lia)) as (-> & -> & -> & ->). cbn [Nat.eqb]. rring. }
  rewrite CU.
  pose proof (BAL (fun b => if (b =? 1)%nat then 1 else 0)) as B1. pose proof (BAL (fun b => if (b =? 2)%nat then 1 else 0)) as B2.
  pose proof (BAL (fun b => if (b =? 3)%nat then 1 else 0)) as B3. rewrite EC, BG in B1, B2, B3. cbn [Nat.eqb] in B1, B2, B3.
  destruct (C36_func_pauli 0 (tx_mu 0) (1/2) 0 0 1) as ((F1 & _) & (S1 & _) & N1 & _ & D1 & _).
  destruct (C36_func_pauli (rz_eps / 4) (tx_mu 1) (1/2) 0 0 1) as ((F2 & _) & (S2 & _) & N2 & _ & D2 & _).
  fold w1 in F1, S1, N1, D1. fold w2 in F2, S2, N2, D2.
  change (func_pauli 0 (tx_mu 0) (1/2) 0 0 1) with w1 in *. change (func_pauli (rz_eps / 4) (tx_mu 1) (1/2) 0 0 1) with w2 in *.
  assert (BA : forall e m, band e (1/2) m 0 0 1) by (intros; unfold band; auto).
  specialize (N1 (BA _ _)). specialize (N2 (BA _ _)). specialize (D1 ltac:(simpl; unfold cut, rz_eps; lra)). specialize (D2 ltac:(simpl; unfold cut, rz_eps; lra)).
  simpl tx_mu in D1, D2. pose proof PI_RGT_0 as PP. pose proof (exp_pos rz_eps) as EE.
  assert (X1 : exp (- ((0 - rz_eps / 8) / (1 / 2))) < exp rz_eps * exp (- ((rz_eps / 4 - 0) / (1 / 2)))) by (rewrite <- exp_plus; apply exp_increasing; lra).
  assert (P1 : 0 < snd w1) by (pose proof (exp_pos (- ((0 - rz_eps / 8) / (1 / 2)))); destruct (Rle_lt_or_eq_dec _ _ S1) as [|Z0]; auto; exfalso; rewrite D1, <- Z0 in N1; lra).
  assert (P2 : 0 < snd w2) by (pose proof (exp_pos (- ((rz_eps / 4 - 0) / (1 / 2)))); destruct (Rle_lt_or_eq_dec _ _ S2) as [|Z0]; auto; exfalso; rewrite D2, <- Z0 in N2; lra).
  apply (pump (2 * PI) (fst w1) (snd w1) (fst w2) (snd w2) (x 0%Z) (x 1%Z) (x 2%Z) (x 3%Z) gg (exp rz_eps)); auto; try lra.
  rewrite D1, D2. assert (PQ : 0 < snd w1 * snd w2) by now apply Rmult_lt_0_compat.
  set (u := exp (- ((0 - rz_eps / 8) / (1 / 2)))) in *. set (v := exp (- ((rz_eps / 4 - 0) / (1 / 2)))) in *. nra.
Qed.
Print Assumptions C78_first_law.
Print Assumptions C78_second_law.
Print Assumptions C78_carnot.
Print Assumptions C78_joule.
Print Assumptions C78_two_leads.
Print Assumptions C78_solution.
Print Assumptions C78_unresolved_refuted.
