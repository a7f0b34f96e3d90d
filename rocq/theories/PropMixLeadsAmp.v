(** Property C75: the amplitudes construct_Tba builds from mixed leads, renumbered leads, and examples. *)
From Coq Require Import String List Arith Lia ZArith Bool Permutation Ring Reals Lra FunctionalExtensionality.
From Verif Require Import Base Bits Indexing IndexingProofs RemoveProofs PropIndexing CRing Fock Operators OperatorsProofs PropOperators SpecFunc
  Qn DMIndex Layout Kernel KernelProofs PropKernel MasterEq PropMaster KernelGen Rates PropRates PropSolve PropStationary PropGauge PropMixLeads.
Import ListNotations.
Open Scope nat_scope.
Local Notation length := List.length.

Section Amplitudes.
Variable K : CRing.
Notation C := (Cx K).
Add Ring CamM : (rth C).
Local Open Scope rng_scope.
(** the amplitude of lead l and level i a list of tleads stands for *)
Definition amp (tleads : list ((nat * nat) * C)) (l i : nat) : C := rsum (fun e => if (Nat.eqb (fst (fst e)) l && Nat.eqb (snd (fst e)) i)%bool then snd e else 0) tleads.
Lemma tunnel_amp : forall n tleads l s' s, (forall l i t, In ((l, i), t) tleads -> i < n)%nat ->
  mel C (tunnel_op K tleads l) s' s = rsum (fun i => amp tleads l i * mel C (cre C i) s' s + conj (amp tleads l i) * mel C (ann C i) s' s) (seq 0 n).
Proof.
  intros n tleads l s' s H. unfold tunnel_op. rewrite osum_mel. induction tleads as [|[[l0 i0] t] tl IH].
  - cbn [rsum]. symmetry. apply rsum_0. intros i _. unfold amp. cbn [rsum]. rewrite conj_0. ring.
  - cbn [rsum]. rewrite IH by (intros l1 i1 t1 Hi; apply (H l1 i1 t1); now right). assert (Hi0 : (i0 < n)%nat) by (apply (H l0 i0 t); now left).
    assert (X : mel C (if Nat.eqb l0 l then oplus C (oscale C t (cre C i0)) (oscale C (conj t) (ann C i0)) else ozero C) s' s =
      rsum (fun i => (if (Nat.eqb l0 l && Nat.eqb i0 i)%bool then t else 0) * mel C (cre C i) s' s + conj (if (Nat.eqb l0 l && Nat.eqb i0 i)%bool then t else 0) * mel C (ann C i) s' s) (seq 0 n)).
    { rewrite (rsum_single C _ _ (seq 0 n) i0).
      - rewrite Nat.eqb_refl. destruct (Nat.eqb l0 l); cbn [andb]; unfold mel, oplus, oscale, ozero; [ring|rewrite conj_0; ring].
      - apply seq_NoDup.
      - apply in_seq. lia.
      - intros i _ Hne. destruct (Nat.eqb_spec i0 i); [congruence|]. rewrite Bool.andb_false_r, conj_0. ring. }
    rewrite X, <- rsum_plus. apply rsum_ext. intros i _. unfold amp. cbn [rsum fst snd]. rewrite conj_add. ring.
Qed.
Local Notation N si := (PropKernel.charge_of si).
Theorem C75_amplitudes : forall n name ops si nl nl' tleads tleads' (U : nat -> nat -> C), reachable_si n name ops si ->
  (forall l i t, In ((l, i), t) tleads -> (l < nl /\ i < n)%nat) -> (forall l i t, In ((l, i), t) tleads' -> (l < nl' /\ i < n)%nat) ->
  (forall l i, (l < nl')%nat -> (i < n)%nat -> amp tleads' l i = rsum (fun m => U l m * amp tleads m i) (seq 0 nl)) ->
  exists T T', construct_Tba K si nl tleads zeros = Some T /\ construct_Tba K si nl' tleads' zeros = Some T' /\
    forall l a b, (l < nl')%nat -> (a < si_nmany si)%nat -> (b < si_nmany si)%nat ->
      T' (l, a, b) = rsum (fun m => (if (N si b <? N si a)%nat then U l m else conj (U l m)) * T (m, a, b)) (seq 0 nl).
Proof.
  intros n name ops si nl nl' tleads tleads' U RS HT HT' HM. pose proof (reachable_correct _ _ _ _ RS) as RC.
  destruct (C13_tunnelling K n name ops si nl tleads zeros RS HT) as (T & E & H).
  destruct (C13_tunnelling K n name ops si nl' tleads' zeros RS HT') as (T' & E' & H').
  exists T, T'. split; [exact E|]. split; [exact E'|]. intros l a b Hl Ha Hb.
  destruct (gs_ex _ _ _ RC a Ha) as (sa & Ea & La). destruct (gs_ex _ _ _ RC b Hb) as (sb & Eb & Lb).
  unfold PropKernel.charge_of. rewrite Ea, Eb, <- (ones_electrons sa), <- (ones_electrons sb).
  rewrite (H' l a b sa sb) by auto. unfold zeros. rewrite (tunnel_amp n tleads') by (intros l1 i1 t1 Hi; apply (HT' l1 i1 t1 Hi)).
  assert (R : forall m, T (m, a, b) = rsum (fun i => amp tleads m i * mel C (cre C i) sa sb + conj (amp tleads m i) * mel C (ann C i) sa sb) (seq 0 n)).
  { intros m. rewrite (H m a b sa sb) by auto. unfold zeros. rewrite (tunnel_amp n tleads) by (intros l1 i1 t1 Hi; apply (HT l1 i1 t1 Hi)). ring. }
  assert (UP : forall i, (i < n)%nat -> ones sa <> S (ones sb) -> mel C (cre C i) sa sb = 0).
  { intros i Hi D. change (mel C (word C [(true, i)]) sa sb = 0). apply word_charge; [lia| |simpl; lia]. intros x j [Ej|[]]. injection Ej as <- <-. lia. }
  assert (DN : forall i, (i < n)%nat -> S (ones sa) <> ones sb -> mel C (ann C i) sa sb = 0).
  { intros i Hi D. change (mel C (word C [(false, i)]) sa sb = 0). apply word_charge; [lia| |simpl; lia]. intros x j [Ej|[]]. injection Ej as <- <-. lia. }
  set (c := fun m => if (ones sb <? ones sa)%nat then U l m else conj (U l m)).
  transitivity (rsum (fun m => rsum (fun i => c m * (amp tleads m i * mel C (cre C i) sa sb + conj (amp tleads m i) * mel C (ann C i) sa sb)) (seq 0 n)) (seq 0 nl)).
  2:{ apply rsum_ext. intros m _. rewrite R, <- rsum_mul_l. reflexivity. }
  rewrite rsum_swap. match goal with |- 0 + ?x = ?y => assert (X : x = y); [|rewrite X; ring] end. apply rsum_ext. intros i Hi. apply in_seq in Hi.
  rewrite (HM l i) by lia. rewrite (rsum_conj K), <- !rsum_mul_r, <- rsum_plus. apply rsum_ext. intros m _. unfold c. rewrite conj_mul.
  destruct (Nat.ltb_spec (ones sb) (ones sa)).
  - rewrite (DN i) by lia. ring.
  - rewrite (UP i) by lia. ring.
Qed.
End Amplitudes.
Print Assumptions C75_amplitudes.

Local Notation Cr := (Cx RRing).
(** *** Renumbered leads: lead m becomes lead p m *)
Section Renumber.
Variables (n : nat) (name : string) (si : SI) (L : Lay).
Hypotheses (Hn : 1 <= n) (Hix : ix_of name n <> IxSsq) (SY : system n name si L).
Variables (E : nat -> R) (it : nat) (quad : R -> R -> R -> R) (digamma_re : R -> R).
Variables (nl : nat) (T : nat -> nat -> nat -> Cr) (mu tl dm dp mu' tl' dm' dp' : nat -> R) (p : nat -> nat).
Hypothesis Hp : forall m, m < nl -> p m < nl.
Hypothesis Hinj : forall m m', m < nl -> m' < nl -> p m = p m' -> m = m'.
Hypothesis Hpar : forall m, m < nl -> mu' (p m) = mu m /\ tl' (p m) = tl m /\ dm' (p m) = dm m /\ dp' (p m) = dp m.
Add Ring CrRN : (rth (Cx RRing)).
Definition renum (l m : nat) : Cr := if Nat.eqb l (p m) then r1 else r0.
Lemma renum_ne : forall l m, renum l m <> r0 -> l = p m.
Proof. intros l m H. unfold renum in H. destruct (Nat.eqb_spec l (p m)); [auto|]. now destruct H. Qed.
Lemma one_ne : (@r1 Cr) <> r0.
Proof. intros X. apply (f_equal re) in X. apply R1_neq_R0. exact X. Qed.
Lemma renum_iso : isometry nl nl renum.
Proof.
  intros m m' Hm Hm'. assert (C1 : CRing.conj (@r1 Cr) = r1) by (apply cplx_eq; [reflexivity|cbn; apply Ropp_0]). destruct (Nat.eqb_spec m m') as [<-|Hne].
  - rewrite (rsum_single Cr _ _ (seq 0 nl) (p m)).
    + unfold renum. rewrite Nat.eqb_refl, C1. ring.
    + apply seq_NoDup.
    + apply in_seq. specialize (Hp m Hm). lia.
    + intros l _ Hl. unfold renum. destruct (Nat.eqb_spec l (p m)); [congruence|]. ring.
  - apply (rsum_0 Cr). intros l _. unfold renum. destruct (Nat.eqb_spec l (p m)) as [->|]; [|rewrite conj_0; ring].
    destruct (Nat.eqb_spec (p m) (p m')) as [X|]; [|ring]. exfalso. apply Hne. now apply Hinj.
Qed.
Lemma renum_sum : forall m (f : nat -> Cr) (c : Cr -> Cr), m < nl -> c r1 = r1 -> c r0 = r0 -> rsum (fun k => rmul (c (renum (p m) k)) (f k)) (seq 0 nl) = f m.
Proof.
  intros m f c Hm C1 C0. rewrite (rsum_single Cr _ _ (seq 0 nl) m).
  - unfold renum. rewrite Nat.eqb_refl, C1. ring.
  - apply seq_NoDup.
  - apply in_seq. lia.
  - intros k Hk Hne. apply in_seq in Hk. unfold renum. destruct (Nat.eqb_spec (p m) (p k)) as [X|]; [exfalso; apply Hne; symmetry; apply Hinj; auto; lia|]. rewrite C0. ring.
Qed.
Lemma renum_alike : forall l m, l < nl -> m < nl -> renum l m <> r0 -> alike mu tl dm dp mu' tl' dm' dp' l m.
Proof. intros l m Hl Hm X. apply renum_ne in X. subst. now apply Hpar. Qed.
Lemma indicator : forall k (f : nat -> R) m, m < k -> weigh k (fun l => if Nat.eqb l m then 1 else 0)%R f = f m.
Proof.
  intros k f m Hm. unfold weigh. rewrite (rsum_single RRing _ _ (seq 0 k) m).
  - rewrite Nat.eqb_refl. rring.
  - apply seq_NoDup.
  - apply in_seq. lia.
  - intros l _ Hne. destruct (Nat.eqb_spec l m); [congruence|]. rring.
Qed.
Local Notation U := renum.
Local Notation TT := (mixed_T si nl T U).
Local Notation pf := (pauli_fct L nl T E mu tl dm dp it).
Local Notation pf' := (pauli_fct L nl TT E mu' tl' dm' dp' it).
Local Notation lf := (lindblad_fct L nl T E mu tl dm dp it).
Local Notation lf' := (lindblad_fct L nl TT E mu' tl' dm' dp' it).
Local Notation vf := (vn1_fct L nl E mu tl dm dp it quad digamma_re).
Local Notation vf' := (vn1_fct L nl E mu' tl' dm' dp' it quad digamma_re).
Local Notation ve := (vn1_fct_energy L nl E mu tl dm dp it quad digamma_re).
Local Notation ve' := (vn1_fct_energy L nl E mu' tl' dm' dp' it quad digamma_re).
Theorem C75_renumbered : forall phi h m, m < nl ->
  (forall a b, TT (p m) a b = T m a b) /\
  out mu' (pauli_current RRing L phi pf') (pauli_energy_current RRing L phi pf' E) (p m) =
    out mu (pauli_current RRing L phi pf) (pauli_energy_current RRing L phi pf E) m /\
  out mu' (lindblad_current RRing L phi lf') (lindblad_energy_current RRing L phi h lf' E) (p m) =
    out mu (lindblad_current RRing L phi lf) (lindblad_energy_current RRing L phi h lf E) m /\
  out mu' (vn1_current RRing L phi TT vf') (vn1_current RRing L phi TT ve') (p m) =
    out mu (vn1_current RRing L phi T vf) (vn1_current RRing L phi T ve) m /\
  out mu' (red_current RRing L phi TT vf') (red_current RRing L phi TT ve') (p m) =
    out mu (red_current RRing L phi T vf) (red_current RRing L phi T ve) m.
Proof.
  intros phi h m Hm.
  assert (S : same nl nl U (fun l => if Nat.eqb l m then 1 else 0)%R (fun l => if Nat.eqb l (p m) then 1 else 0)%R).
  { intros l k Hl Hk X. apply renum_ne in X. subst. destruct (Nat.eqb_spec k m) as [->|Hne]; [now rewrite Nat.eqb_refl|].
    destruct (Nat.eqb_spec (p k) (p m)); [exfalso; apply Hne; now apply Hinj|reflexivity]. }
  assert (O : forall mu mu' cur cur' en en', totals nl (fun l => if Nat.eqb l (p m) then 1 else 0)%R mu' cur' en' = totals nl (fun l => if Nat.eqb l m then 1 else 0)%R mu cur en ->
     out mu' cur' en' (p m) = out mu cur en m).
  { intros mu0 mu0' cur cur' en en' X. unfold totals in X. rewrite !indicator in X by auto. exact X. }
  destruct (C75_currents n name si L Hn Hix SY E it quad digamma_re nl T mu tl dm dp nl mu' tl' dm' dp' U renum_iso renum_alike phi h _ _ S) as (A & B & C & D).
  split; [|split; [|split; [|split]]]; try (apply O; assumption).
  intros a b. unfold mixed_T. destruct (charge_of si b <? charge_of si a).
  - exact (renum_sum m (fun k => T k a b) (fun x => x) Hm eq_refl eq_refl).
  - apply (renum_sum m (fun k => T k a b) (@CRing.conj RRing) Hm); [|apply conj_0]. apply cplx_eq; [reflexivity|cbn; apply Ropp_0].
Qed.
End Renumber.
Print Assumptions C75_renumbered.

(** *** Examples *)
Local Open Scope R_scope.
(** lead 1 of the double dot of C69_case split in two with 3/5 and 4i/5 of its amplitudes *)
Definition mx_U (l m : nat) : Cr := match l, m with 0%nat, 0%nat => @mkC RRing 1 0 | 1%nat, 1%nat => @mkC RRing (3/5) 0 | 2%nat, 1%nat => @mkC RRing 0 (4/5) | _, _ => @mkC RRing 0 0 end.
Definition mx_map {A : Type} (f : nat -> A) (l : nat) : A := match l with 0%nat => f 0%nat | _ => f 1%nat end.
Example C75_case : exists x,
  let mu' := mx_map sx_mu in let tl' := mx_map sx_tl in
  let T' := mixed_T ex_si 2 ry_T mx_U in
  let pf := pauli_fct ex_L 2 ry_T ry_E sx_mu sx_tl (fun _ => -100) (fun _ => 100) 0 in
  let pf' := pauli_fct ex_L 3 T' ry_E mu' tl' (fun _ => -100) (fun _ => 100) 0 in
  T' 2%nat 1%nat 0%nat = rmul (@mkC RRing 0 (4/5) : Cr) (ry_T 1%nat 1%nat 0%nat) /\
  solution ex_L (kern_of RRing ex_L (pauli_calls RRing ex_L 2 pf)) 0 x /\ solution ex_L (kern_of RRing ex_L (pauli_calls RRing ex_L 3 pf')) 0 x /\ 0 < x 0%Z < 1 /\
  pauli_current RRing ex_L x pf' 0%nat = pauli_current RRing ex_L x pf 0%nat /\
  pauli_current RRing ex_L x pf' 1%nat + pauli_current RRing ex_L x pf' 2%nat = pauli_current RRing ex_L x pf 1%nat.
Proof.
  destruct C69_case as (_ & x & SX & P & _). exists x. intros mu' tl' T' pf pf'.
  assert (Hix : ix_of "charge" 2 <> IxSsq) by discriminate. assert (H2 : (1 <= 2)%nat) by lia.
  assert (HU : isometry 2 3 mx_U).
  { intros m m' Hm Hm'. assert (X : (m = 0 \/ m = 1)%nat) by lia. assert (X' : (m' = 0 \/ m' = 1)%nat) by lia.
    destruct X as [->| ->], X' as [->| ->]; cbn [seq rsum mx_U Nat.eqb]; apply cplx_eq; rewrite !re_add || rewrite !im_add; rewrite ?re_mul, ?im_mul; cbn [CRing.conj re im];
      match goal with |- @eq _ ?u ?v => change (@eq R u v) end; cbn; change (re (@r0 Cr)) with 0; change (im (@r0 Cr)) with 0; change (re (@r1 Cr)) with 1; change (im (@r1 Cr)) with 0; field. }
  assert (HA : forall l m, (l < 3)%nat -> (m < 2)%nat -> mx_U l m <> r0 -> alike sx_mu sx_tl (fun _ => -100) (fun _ => 100) mu' tl' (fun _ => -100) (fun _ => 100) l m).
  { intros l m Hl Hm X. destruct l as [|[|[|l]]]; try lia; destruct m as [|[|m]]; try lia; try (exfalso; apply X; reflexivity); repeat split. }
  destruct (C75_kernels 2 "charge" ex_si ex_L H2 Hix ex_system ry_E 0 (fun _ _ _ => 0) (fun _ => 0) 2 ry_T sx_mu sx_tl (fun _ => -100) (fun _ => 100) 3 mu' tl' (fun _ => -100) (fun _ => 100) mx_U HU HA (1/2)) as (KS & _).
  pose proof (C75_currents 2 "charge" ex_si ex_L H2 Hix ex_system ry_E 0 (fun _ _ _ => 0) (fun _ => 0) 2 ry_T sx_mu sx_tl (fun _ => -100) (fun _ => 100) 3 mu' tl' (fun _ => -100) (fun _ => 100) mx_U HU HA x (1/2)) as CU.
  split; [|split; [exact SX|split; [|split; [exact P|]]]].
  - unfold T', mixed_T. replace (charge_of ex_si 0) with 0%nat by reflexivity. replace (charge_of ex_si 1) with 1%nat by reflexivity. cbn [Nat.ltb Nat.leb seq rsum mx_U].
    apply cplx_eq; rewrite ?re_add, ?im_add, ?re_mul, ?im_mul; cbn [re im]; match goal with |- @eq _ ?u ?v => change (@eq R u v) end; cbn; change (re (@r0 Cr)) with 0; change (im (@r0 Cr)) with 0; try ring. 
  - change (pauli_calls RRing ex_L 3 pf' = pauli_calls RRing ex_L 2 pf) in KS. rewrite KS. exact SX.
  - assert (S0 : same 2 3 mx_U (fun l => match l with 0%nat => 1 | _ => 0 end) (fun l => match l with 0%nat => 1 | _ => 0 end)).
    { intros l m Hl Hm X. destruct l as [|[|[|l]]]; try lia; destruct m as [|[|m]]; try lia; try (exfalso; apply X; reflexivity); reflexivity. }
    assert (S1 : same 2 3 mx_U (fun l => match l with 0%nat => 0 | _ => 1 end) (fun l => match l with 0%nat => 0 | _ => 1 end)).
    { intros l m Hl Hm X. destruct l as [|[|[|l]]]; try lia; destruct m as [|[|m]]; try lia; try (exfalso; apply X; reflexivity); reflexivity. }
    destruct (CU _ _ S0) as (A & _). destruct (CU _ _ S1) as (B & _).
    apply (f_equal (fun q => fst (fst q))) in A. apply (f_equal (fun q => fst (fst q))) in B.
    assert (G : forall c d : nat -> R, weigh 3 (fun l => match l with 0%nat => 1 | _ => 0 end) d = weigh 2 (fun l => match l with 0%nat => 1 | _ => 0 end) c ->
      weigh 3 (fun l => match l with 0%nat => 0 | _ => 1 end) d = weigh 2 (fun l => match l with 0%nat => 0 | _ => 1 end) c -> d 0%nat = c 0%nat /\ d 1%nat + d 2%nat = c 1%nat).
    { clear. intros c d A B. unfold weigh in A, B. cbn in A, B. split; lra. }
    exact (G _ _ A B).
Qed.
(** the two leads of that double dot change places *)
Example C75_renumbered_case : forall x,
  let sw := (fun l => match l with 0 => 1 | _ => 0 end)%nat in
  let T' := mixed_T ex_si 2 ry_T (renum sw) in
  T' 0%nat 1%nat 0%nat = ry_T 1%nat 1%nat 0%nat /\
  out (fun l => sx_mu (sw l)) (pauli_current RRing ex_L x (pauli_fct ex_L 2 T' ry_E (fun l => sx_mu (sw l)) (fun l => sx_tl (sw l)) (fun _ => -100) (fun _ => 100) 0))
      (pauli_energy_current RRing ex_L x (pauli_fct ex_L 2 T' ry_E (fun l => sx_mu (sw l)) (fun l => sx_tl (sw l)) (fun _ => -100) (fun _ => 100) 0) ry_E) 0 =
  out sx_mu (pauli_current RRing ex_L x (pauli_fct ex_L 2 ry_T ry_E sx_mu sx_tl (fun _ => -100) (fun _ => 100) 0))
      (pauli_energy_current RRing ex_L x (pauli_fct ex_L 2 ry_T ry_E sx_mu sx_tl (fun _ => -100) (fun _ => 100) 0) ry_E) 1.
Proof.
  intros x sw T'. assert (Hix : ix_of "charge" 2 <> IxSsq) by discriminate. assert (H2 : (1 <= 2)%nat) by lia.
  assert (Hp : forall m, (m < 2)%nat -> (sw m < 2)%nat) by (intros [|m] H; cbn; lia).
  assert (Hi : forall m m', (m < 2)%nat -> (m' < 2)%nat -> sw m = sw m' -> m = m') by (intros [|[|m]] [|[|m']] A B C; cbn in C; lia).
  assert (Hq : forall m, (m < 2)%nat -> sx_mu (sw (sw m)) = sx_mu m /\ sx_tl (sw (sw m)) = sx_tl m /\ -100 = -100 /\ 100 = 100) by (intros [|[|m]] H; try lia; repeat split).
  destruct (C75_renumbered 2 "charge" ex_si ex_L H2 Hix ex_system ry_E 0 (fun _ _ _ => 0) (fun _ => 0) 2 ry_T sx_mu sx_tl (fun _ => -100) (fun _ => 100)
    (fun l => sx_mu (sw l)) (fun l => sx_tl (sw l)) (fun _ => -100) (fun _ => 100) sw Hp Hi Hq x (1/2) 1%nat ltac:(lia)) as (A & B & _).
  split; [exact (A 1%nat 0%nat)|exact B].
Qed.
(** two leads replaced by their sum and by i times the first minus the second *)
Example C75_amplitudes_case :
  amp ZRing [((0%nat, 0%nat), ZC 2 3); ((1%nat, 0%nat), ZC 0 2); ((1%nat, 0%nat), ZC 3 0)] 1 0 = (ZC 0 1 * ZC 2 0 + (ZC 0 (-1)) * ZC 0 3)%rng /\
  match construct_Tba ZRing (si_init 2 "charge") 2 [((0%nat, 0%nat), ZC 2 0); ((1%nat, 0%nat), ZC 0 3)] zeros,
        construct_Tba ZRing (si_init 2 "charge") 2 [((0%nat, 0%nat), ZC 2 3); ((1%nat, 0%nat), ZC 0 2); ((1%nat, 0%nat), ZC 3 0)] zeros with
  | Some T, Some T' => (T' (1%nat, 2%nat, 0%nat), T' (1%nat, 0%nat, 2%nat)) = (ZC 3 2, (ZC 0 (-1) * T (0%nat, 0%nat, 2%nat) + ZC 0 1 * T (1%nat, 0%nat, 2%nat))%rng)
  | _, _ => False end.
Proof. split; vm_compute; reflexivity. Qed.
