(** Property C71: a common shift of the level energies and of the chemical potentials changes nothing. *)
From Coq Require Import String List Arith Lia ZArith Bool Permutation Ring Reals Lra FunctionalExtensionality.
From Verif Require Import Base Bits Indexing SsqProofs Qn DMIndex DMIndexProofs DMReach PropDMIndex CRing SpecFunc Layout Coherences Kernel KernelProofs
  PauliProofs CohProofs CohKernels CohCurrents PropKernel MasterEq PropMaster KernelGen ElPh PropElPh Rates PropRates.
Import ListNotations.
Open Scope nat_scope.
Local Notation length := List.length.
Local Notation Cr := (Cx RRing).

(** ** Specification *)
Open Scope R_scope.
(** the band edges follow the shift where the integrals have a band *)
Definition edge (it : nat) (d x : R) : R := if ((it =? 1) || (it =? 3))%nat then x else x + d.

(** ** The lead functions *)
Lemma func_pauli_shift : forall e mu T Dm Dp it d, func_pauli (e + d) (mu + d) T (edge it d Dm) (edge it d Dp) it = func_pauli e mu T Dm Dp it.
Proof.
  intros. unfold func_pauli, edge. replace (e + d - (mu + d)) with (e - mu) by ring.
  destruct (it =? 1)%nat; [reflexivity|]. destruct (it =? 3)%nat; [reflexivity|].
  cbn [orb]. replace (Dm + d - (mu + d)) with (Dm - mu) by ring. replace (Dp + d - (mu + d)) with (Dp - mu) by ring. reflexivity.
Qed.
Definition with_energy (d : R) (x : Cr * Cr * Cr * Cr) : Cr * Cr * Cr * Cr :=
  let '(c0, c1, e0, e1) := x in (c0, c1, radd e0 (rmul (@ofR RRing d) c0), radd e1 (rmul (@ofR RRing d) c1)).
Ltac quad_eq := match goal with |- (?a, ?b, ?c, ?e) = (?a', ?b', ?c', ?e') =>
  assert (QC : c = c') by (apply cplx_eq; rewrite ?re_add, ?im_add, ?re_mul, ?im_mul; rsimp; rewrite ?re_add, ?im_add; rsimp; match goal with |- @eq _ ?u ?v => change (@eq R u v) end; ring);
  assert (QE : e = e') by (apply cplx_eq; rewrite ?re_add, ?im_add, ?re_mul, ?im_mul; rsimp; rewrite ?re_add, ?im_add; rsimp; match goal with |- @eq _ ?u ?v => change (@eq R u v) end; ring);
  exact (f_equal2 (fun x y => (a, b, x, y)) QC QE) end.
Lemma func_1vN_shift : forall quad dg e mu T Dm Dp it d,
  func_1vN quad dg (e + d) (mu + d) T (edge it d Dm) (edge it d Dp) it = with_energy d (func_1vN quad dg e mu T Dm Dp it).
Proof.
  intros. unfold func_1vN, edge, with_energy. replace (e + d - (mu + d)) with (e - mu) by ring.
  destruct it as [|[|[|[|it]]]]; cbn [Nat.eqb orb].
  - replace (Dm + d - (mu + d)) with (Dm - mu) by ring. replace (Dp + d - (mu + d)) with (Dp - mu) by ring.
    quad_eq.
  - quad_eq.
  - replace (Dm + d - (mu + d)) with (Dm - mu) by ring. replace (Dp + d - (mu + d)) with (Dp - mu) by ring.
    quad_eq.
  - quad_eq.
  - quad_eq.
Qed.

(** ** Tables *)
Lemma flat_map_ext_in : forall A B (f g : A -> list B) l, (forall x, In x l -> f x = g x) -> flat_map f l = flat_map g l.
Proof. induction l as [|x l IH]; intros H; simpl; auto. rewrite H by (now left). rewrite IH; auto. intros. apply H. now right. Qed.
Lemma run_writes_map : forall I V W ieq (g : V -> W) us m i, g (@run_writes I V ieq us m i) = run_writes ieq (map (fun u => (fst u, g (snd u))) us) (fun i => g (m i)) i.
Proof.
  intros I V W ieq g us. induction us as [|u us IH]; intros m i; [reflexivity|]. cbn [map]. unfold run_writes in *. cbn [fold_left]. rewrite IH.
  f_equal. apply functional_extensionality. intros k. unfold set_at. cbn [fst snd]. destruct (ieq k (fst u)); reflexivity.
Qed.

Section Props.
Variables (n : nat) (name : string) (si : SI) (L : Lay).
Hypotheses (Hn : (1 <= n)%nat) (Hix : ix_of name n <> IxSsq) (SY : system n name si L).
Let LO : layout L := system_layout n name si L Hn Hix SY.
Let CH := system_charge n name si L Hn Hix SY.
Local Notation N := (charge_of si).
Variables (nl : nat) (T : nat -> nat -> nat -> Cr) (E mu tl dm dp : nat -> R) (it : nat) (quad : R -> R -> R -> R) (digamma_re : R -> R) (d : R).
Add Ring CrPG : (rth (Cx RRing)).
(** everything shifted: an electron more costs d more, in the dot and in the leads *)
Definition shifted_E (b : nat) : R := E b + d * INR (N b).
Definition shifted_mu (l : nat) : R := mu l + d.
Definition shifted_dm (l : nat) : R := edge it d (dm l).
Definition shifted_dp (l : nat) : R := edge it d (dp l).
Local Notation pf := (pauli_fct L nl T E mu tl dm dp it).
Local Notation pf' := (pauli_fct L nl T shifted_E shifted_mu tl shifted_dm shifted_dp it).
Local Notation lf := (lindblad_fct L nl T E mu tl dm dp it).
Local Notation lf' := (lindblad_fct L nl T shifted_E shifted_mu tl shifted_dm shifted_dp it).
Local Notation vf := (vn1_fct L nl E mu tl dm dp it quad digamma_re).
Local Notation vf' := (vn1_fct L nl shifted_E shifted_mu tl shifted_dm shifted_dp it quad digamma_re).
Local Notation ve := (vn1_fct_energy L nl E mu tl dm dp it quad digamma_re).
Local Notation ve' := (vn1_fct_energy L nl shifted_E shifted_mu tl shifted_dm shifted_dp it quad digamma_re).

Lemma gap_up : forall q c b, (0 <= q)%Z -> In c (states L (q + 1)) -> In b (states L q) -> shifted_E c - shifted_E b = E c - E b + d.
Proof.
  intros q c b Hq Hc Hb. unfold shifted_E. rewrite (CH (q + 1)%Z c), (CH q b) by (auto; lia).
  replace (Z.to_nat (q + 1)) with (S (Z.to_nat q)) by lia. rewrite S_INR. ring.
Qed.
Lemma gap_same : forall q c b, (0 <= q)%Z -> In c (states L q) -> In b (states L q) -> shifted_E c - shifted_E b = E c - E b.
Proof. intros q c b Hq Hc Hb. unfold shifted_E. rewrite (CH q c), (CH q b) by auto. ring. Qed.
Lemma each_in_ext : forall A (f g : nat -> nat -> Z -> nat -> list A),
  (forall c b q l, (0 <= q)%Z -> In c (states L (q + 1)) -> In b (states L q) -> f c b q l = g c b q l) -> each L nl f = each L nl g.
Proof.
  intros A f g H. unfold each. apply flat_map_ext_in. intros q Hq. apply flat_map_ext_in. intros [c b] Hp. apply flat_map_ext_in. intros l _.
  apply in_prod_iff in Hp. unfold charges1 in Hq. apply in_map_iff in Hq. destruct Hq as (k & <- & _). apply H; try tauto. lia.
Qed.
Lemma fp_shift : forall l q c b, (0 <= q)%Z -> In c (states L (q + 1)) -> In b (states L q) ->
  fpauli shifted_mu tl shifted_dm shifted_dp it l (shifted_E c - shifted_E b) = fpauli mu tl dm dp it l (E c - E b).
Proof. intros l q c b Hq Hc Hb. rewrite (gap_up q) by auto. apply func_pauli_shift. Qed.
Lemma fv_shift : forall l q c b, (0 <= q)%Z -> In c (states L (q + 1)) -> In b (states L q) ->
  fvn1 shifted_mu tl shifted_dm shifted_dp it quad digamma_re l (shifted_E c - shifted_E b) = with_energy d (fvn1 mu tl dm dp it quad digamma_re l (E c - E b)).
Proof. intros l q c b Hq Hc Hb. rewrite (gap_up q) by auto. apply func_1vN_shift. Qed.
Lemma pauli_same : pf' = pf.
Proof.
  apply functional_extensionality. intros l. apply functional_extensionality. intros k. apply functional_extensionality. intros s.
  unfold pauli_fct. apply run_writes_ext. apply each_in_ext. intros c b q l' Hq Hc Hb. cbv zeta. now rewrite (fp_shift l' q) by auto.
Qed.
Lemma lindblad_same : lf' = lf.
Proof.
  apply functional_extensionality. intros l. apply functional_extensionality. intros k. apply functional_extensionality. intros s.
  unfold lindblad_fct. apply run_writes_ext. apply each_in_ext. intros c b q l' Hq Hc Hb. cbv zeta. now rewrite (fp_shift l' q) by auto.
Qed.
Lemma vn1_same : vf' = vf.
Proof.
  apply functional_extensionality. intros l. apply functional_extensionality. intros k. apply functional_extensionality. intros s.
  unfold vn1_fct. apply run_writes_ext. apply each_in_ext. intros c b q l' Hq Hc Hb. cbv zeta. rewrite (fv_shift l' q) by auto.
  unfold with_energy. destruct (fvn1 _ _ _ _ _ _ _ _ _) as [[[c0 c1] e0] e1]. reflexivity.
Qed.
Definition joint : nat * nat * bool -> Cr * Cr :=
  run_writes eqk (each L nl (fun c b q l =>
      let cb := ind1 L c b q in
      let '(c0, c1, e0, e1) := fvn1 mu tl dm dp it quad digamma_re l (E c - E b)%R in
      [((l, cb, false), (c0, e0)); ((l, cb, true), (c1, e1))])) (fun _ => (r0, r0)).
Lemma map_each : forall A B (g : A -> B) f, map g (each L nl f) = each L nl (fun c b q l => map g (f c b q l)).
Proof.
  intros A B g f. assert (M : forall C (h : C -> list A) l, map g (flat_map h l) = flat_map (fun x => map g (h x)) l).
  { intros C h l. induction l; simpl; auto. now rewrite map_app, IHl. }
  unfold each. rewrite M. apply flat_map_ext. intros q. rewrite M. apply flat_map_ext. intros [c b]. now rewrite M.
Qed.
Lemma vn1_joint : forall l k s, vf l k s = fst (joint (l, k, s)) /\ ve l k s = snd (joint (l, k, s)) /\
  ve' l k s = radd (snd (joint (l, k, s))) (rmul (@ofR RRing d) (fst (joint (l, k, s)))).
Proof.
  intros l k s. unfold joint. split; [|split].
  - rewrite (run_writes_map _ _ _ eqk fst). rewrite map_each. cbn [fst]. unfold vn1_fct. apply run_writes_ext. apply each_ext. intros c b q l'. cbv zeta.
    destruct (fvn1 _ _ _ _ _ _ _ _ _) as [[[c0 c1] e0] e1]. reflexivity.
  - rewrite (run_writes_map _ _ _ eqk snd). rewrite map_each. cbn [snd]. unfold vn1_fct_energy. apply run_writes_ext. apply each_ext. intros c b q l'. cbv zeta.
    destruct (fvn1 _ _ _ _ _ _ _ _ _) as [[[c0 c1] e0] e1]. reflexivity.
  - rewrite (run_writes_map _ _ _ eqk (fun x : Cr * Cr => radd (snd x) (rmul (@ofR RRing d) (fst x)))). rewrite map_each. cbn [fst snd].
    assert (Z : (fun _ : nat * nat * bool => radd r0 (rmul (@ofR RRing d) (r0 : Cr)) : Cr) = (fun _ => r0)).
    { apply functional_extensionality. intros _. ring. }
    rewrite Z. unfold vn1_fct_energy. apply run_writes_ext. apply each_in_ext. intros c b q l' Hq Hc Hb. cbv zeta. rewrite (fv_shift l' q) by auto.
    unfold with_energy. destruct (fvn1 _ _ _ _ _ _ _ _ _) as [[[c0 c1] e0] e1]. reflexivity.
Qed.
Theorem C71_tables : (forall l k s, pf' l k s = pf l k s) /\ (forall l a b, lf' l a b = lf l a b) /\ (forall l k s, vf' l k s = vf l k s) /\
  (forall l k s, ve' l k s = radd (ve l k s) (rmul (@ofR RRing d) (vf l k s))).
Proof.
  rewrite pauli_same, lindblad_same, vn1_same. repeat split. intros l k s. destruct (vn1_joint l k s) as (-> & -> & ->). reflexivity.
Qed.
Lemma generate_same : forall cpl, generate_kern RRing L shifted_E cpl = generate_kern RRing L E cpl.
Proof.
  intros cpl. unfold generate_kern. apply flat_map_ext_in. intros c Hc. apply charges_in in Hc. apply flat_map_ext_in. intros [b bp] Hp.
  apply combinations_wr_in in Hp. change (@rsub RRing) with Rminus. assert (X : In b (states L c) /\ In bp (states L c)).
  { destruct Hp as [(-> & Hb)|Hp]; auto. apply combinations2_in in Hp; [tauto|apply (lo_nodup L LO); lia]. }
  rewrite (gap_same c b bp) by (try lia; tauto). reflexivity.
Qed.
Theorem C71_kernels : forall h,
  pauli_calls RRing L nl pf' = pauli_calls RRing L nl pf /\
  lindblad_calls RRing L nl h lf' shifted_E = lindblad_calls RRing L nl h lf E /\
  vn1_calls RRing L nl T vf' shifted_E = vn1_calls RRing L nl T vf E /\
  red_calls RRing L nl T vf' shifted_E = red_calls RRing L nl T vf E.
Proof.
  intros h. rewrite pauli_same, lindblad_same, vn1_same. unfold lindblad_calls, vn1_calls, red_calls. rewrite !generate_same. auto.
Qed.
End Props.

(** ** Currents *)
Lemma rsum_comb : forall (K : CRing) A (c : K) (f g h : A -> K) l, (forall x, In x l -> h x = radd (f x) (rmul c (g x))) ->
  rsum h l = radd (rsum f l) (rmul c (rsum g l)).
Proof. intros K A c f g h l H. rewrite <- (rsum_mul_l K), <- (rsum_plus K). now apply rsum_ext. Qed.

Section Currents.
Variables (n : nat) (name : string) (si : SI) (L : Lay).
Hypotheses (Hn : (1 <= n)%nat) (Hix : ix_of name n <> IxSsq) (SY : system n name si L).
Let LO : layout L := system_layout n name si L Hn Hix SY.
Let CH := system_charge n name si L Hn Hix SY.
Local Notation N := (charge_of si).
Variables (nl : nat) (T : nat -> nat -> nat -> Cr) (E mu tl dm dp : nat -> R) (it : nat) (quad : R -> R -> R -> R) (digamma_re : R -> R) (d : R).
Add Ring CrPC : (rth (Cx RRing)).
Local Notation E' := (shifted_E si E d).
Local Notation mu' := (shifted_mu mu d).
Local Notation dm' := (shifted_dm dm it d).
Local Notation dp' := (shifted_dp dp it d).
Local Notation pf := (pauli_fct L nl T E mu tl dm dp it).
Local Notation pf' := (pauli_fct L nl T E' mu' tl dm' dp' it).
Local Notation lf := (lindblad_fct L nl T E mu tl dm dp it).
Local Notation lf' := (lindblad_fct L nl T E' mu' tl dm' dp' it).
Local Notation vf := (vn1_fct L nl E mu tl dm dp it quad digamma_re).
Local Notation vf' := (vn1_fct L nl E' mu' tl dm' dp' it quad digamma_re).
Local Notation ve := (vn1_fct_energy L nl E mu tl dm dp it quad digamma_re).
Local Notation ve' := (vn1_fct_energy L nl E' mu' tl dm' dp' it quad digamma_re).
Variables (phi : Z -> R) (h : R).
Hypothesis Hh : h + h = 1.
Lemma charges1_pos : forall q, In q (charges1 L) -> (0 <= q)%Z.
Proof. intros q H. unfold charges1 in H. apply in_map_iff in H. destruct H as (k & <- & _). lia. Qed.

Lemma pauli_en : forall F l, pauli_energy_current RRing L phi F E' l = pauli_energy_current RRing L phi F E l + d * pauli_current RRing L phi F l.
Proof.
  intros F l. unfold pauli_energy_current, pauli_current. apply (rsum_comb RRing). intros q Hq. apply charges1_pos in Hq.
  apply (rsum_comb RRing). intros c Hc. apply (rsum_comb RRing). intros b Hb.
  pose proof (gap_up n name si L Hn Hix SY E d q c b Hq Hc Hb) as G. rsimp.
  replace (- (E' b - E' c))%R with (- (E b - E c) + d)%R by lra. rring.
Qed.
Lemma lindblad_en : forall F l, lindblad_energy_current RRing L phi h F E' l = lindblad_energy_current RRing L phi h F E l + d * lindblad_current RRing L phi F l.
Proof.
  intros F l. unfold lindblad_energy_current, lindblad_current. apply (rsum_comb RRing). intros q Hq. apply charges_in in Hq.
  apply (rsum_comb RRing). intros [b bp] Hp. apply in_prod_iff in Hp. destruct Hp as (Hb & Hbp).
  destruct (is_included L b bp q); [|rring].
  set (A' := rsum (fun a => _) (states L (q - 1))). set (C' := rsum (fun c => _) (states L (q + 1))).
  match goal with |- _ = radd (re (radd ?a ?c)) (rmul _ (re (radd ?a2 ?c2))) =>
    assert (XA : A' = radd a (rmul (@ofR RRing d) a2)); [|assert (XC : C' = radd c (rmul (@ofR RRing d) c2))] end.
  - unfold A'. apply (rsum_comb Cr). intros a Ha. destruct (Z.eq_dec q 0) as [->|Hne]; [change (0 - 1)%Z with (-1)%Z in Ha; rewrite (lo_below L LO) in Ha; destruct Ha|].
    pose proof (gap_up n name si L Hn Hix SY E d (q - 1) b a) as G1. pose proof (gap_up n name si L Hn Hix SY E d (q - 1) bp a) as G2.
    replace (q - 1 + 1)%Z with q in * by lia. specialize (G1 ltac:(lia) Hb Ha). specialize (G2 ltac:(lia) Hbp Ha).
    assert (Q : E' a - h * (E' b + E' bp) = (E a - h * (E b + E bp)) - d) by nra.
    change (@rsub RRing) with Rminus. change (@rmul RRing) with Rmult. change (@radd RRing) with Rplus. rewrite Q.
    assert (O : @ofR RRing ((E a - h * (E b + E bp)) - d)%R = rsub (@ofR RRing (E a - h * (E b + E bp))%R) (@ofR RRing d)).
    { apply cplx_eq; [reflexivity|]. change (@eq R 0 (0 - 0)) || change (@eq R 0 (0 + 0)). ring. }
    rewrite O. ring.
  - unfold C'. apply (rsum_comb Cr). intros c Hc.
    pose proof (gap_up n name si L Hn Hix SY E d q c b ltac:(lia) Hc Hb) as G1. pose proof (gap_up n name si L Hn Hix SY E d q c bp ltac:(lia) Hc Hbp) as G2.
    assert (Q : E' c - h * (E' b + E' bp) = (E c - h * (E b + E bp)) + d) by nra.
    change (@rsub RRing) with Rminus. change (@rmul RRing) with Rmult. change (@radd RRing) with Rplus. rewrite Q.
    assert (O : @ofR RRing ((E c - h * (E b + E bp)) + d)%R = radd (@ofR RRing (E c - h * (E b + E bp))%R) (@ofR RRing d)).
    { apply cplx_eq; [reflexivity|]. change (@eq R 0 (0 - 0)) || change (@eq R 0 (0 + 0)). ring. }
    rewrite O. ring.
  - rewrite XA, XC. rewrite !re_add, !re_mul. cbn [re im ofR]. rring.
Qed.
Definition mixes (F Fe Fc : nat -> nat -> bool -> Cr) : Prop := forall l k s, F l k s = radd (Fe l k s) (rmul (@ofR RRing d) (Fc l k s)).
Lemma m2im_comb : forall x y : Cr, m2im RRing (radd x (rmul (@ofR RRing d) y)) = m2im RRing x + d * m2im RRing y.
Proof. intros x y. unfold m2im. rewrite im_add, im_mul. cbn [re im ofR]. rring. Qed.
Lemma vn1_comb : forall F Fe Fc, mixes F Fe Fc -> forall l, vn1_current RRing L phi T F l = vn1_current RRing L phi T Fe l + d * vn1_current RRing L phi T Fc l.
Proof.
  intros F Fe Fc M l. unfold vn1_current. apply (rsum_comb RRing). intros q _. apply (rsum_comb RRing). intros [c b] _.
  assert (X : vn1_amp RRing L phi T F l c b q = radd (vn1_amp RRing L phi T Fe l c b q) (rmul (@ofR RRing d) (vn1_amp RRing L phi T Fc l c b q))).
  { unfold vn1_amp. cbv zeta.
    match goal with |- radd ?p ?q = radd (radd ?a ?b) (rmul ?c (radd ?a2 ?b2)) =>
      assert (P : p = radd a (rmul c a2)); [|assert (Q : q = radd b (rmul c b2)); [|rewrite P, Q; ring]] end;
      apply (rsum_comb Cr); intros x _; destruct (is_included _ _ _ _); try rewrite M; ring. }
  rewrite X. apply m2im_comb.
Qed.
Lemma red_comb : forall F Fe Fc, mixes F Fe Fc -> forall l, red_current RRing L phi T F l = red_current RRing L phi T Fe l + d * red_current RRing L phi T Fc l.
Proof.
  intros F Fe Fc M l. unfold red_current. apply (rsum_comb RRing). intros q _. apply (rsum_comb RRing). intros [c b] _.
  assert (X : red_amp RRing L phi T F l c b q = radd (red_amp RRing L phi T Fe l c b q) (rmul (@ofR RRing d) (red_amp RRing L phi T Fc l c b q))).
  { unfold red_amp. cbv zeta.
    match goal with |- radd ?p ?q = radd (radd ?a ?b) (rmul ?c (radd ?a2 ?b2)) =>
      assert (P : p = radd a (rmul c a2)); [|assert (Q : q = radd b (rmul c b2)); [|rewrite P, Q; ring]] end;
      apply (rsum_comb Cr); intros x _; destruct (is_included _ _ _ _); try rewrite M; ring. }
  rewrite X. apply m2im_comb.
Qed.
(** what a solved system hands out for lead l: current, energy current, heat current *)
Definition out (m cur en : nat -> R) (l : nat) : R * R * R := (cur l, en l, heat_of RRing cur en m l).
Definition moved (x : R * R * R) : R * R * R := let '(c, e, q) := x in (c, e + d * c, q).
Theorem C71_currents : forall l,
  out mu' (pauli_current RRing L phi pf') (pauli_energy_current RRing L phi pf' E') l =
    moved (out mu (pauli_current RRing L phi pf) (pauli_energy_current RRing L phi pf E) l) /\
  out mu' (lindblad_current RRing L phi lf') (lindblad_energy_current RRing L phi h lf' E') l =
    moved (out mu (lindblad_current RRing L phi lf) (lindblad_energy_current RRing L phi h lf E) l) /\
  out mu' (vn1_current RRing L phi T vf') (vn1_current RRing L phi T ve') l =
    moved (out mu (vn1_current RRing L phi T vf) (vn1_current RRing L phi T ve) l) /\
  out mu' (red_current RRing L phi T vf') (red_current RRing L phi T ve') l =
    moved (out mu (red_current RRing L phi T vf) (red_current RRing L phi T ve) l).
Proof.
  intros l. rewrite (pauli_same n name si L Hn Hix SY nl T E mu tl dm dp it quad digamma_re d), (lindblad_same n name si L Hn Hix SY nl T E mu tl dm dp it quad digamma_re d), (vn1_same n name si L Hn Hix SY nl T E mu tl dm dp it quad digamma_re d).
  assert (MX : mixes ve' ve vf) by (intros k m s; apply (C71_tables n name si L Hn Hix SY nl T E mu tl dm dp it quad digamma_re d)).
  assert (G : forall (cur en en' : nat -> R), en' l = en l + d * cur l -> out mu' cur en' l = moved (out mu cur en l)).
  { intros cur en en' H. unfold out, moved, heat_of. change (@rsub RRing) with Rminus. change (@rmul RRing) with Rmult. rewrite H. unfold shifted_mu. f_equal. ring. }
  repeat split; apply G; [apply pauli_en|apply lindblad_en|now apply vn1_comb|now apply red_comb].
Qed.
End Currents.
Print Assumptions C71_tables.
Print Assumptions C71_kernels.
Print Assumptions C71_currents.
