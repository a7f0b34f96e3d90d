(** Property C75: which leads there are is a matter of description.  Leads with the same chemical potential, temperature and band may be mixed by an isometry
    U (renumbered, split, merged, turned into each other, padded with leads that are not coupled): the kernels stay, and so does every current summed
    over the leads that take part. *)
From Coq Require Import String List Arith Lia ZArith Bool Permutation Ring Reals Lra FunctionalExtensionality.
From Verif Require Import Base Bits Indexing SsqProofs Qn DMIndex DMIndexProofs DMReach PropDMIndex CRing SpecFunc Layout Coherences Kernel KernelProofs
  PauliProofs CohProofs CohKernels CohCurrents PropKernel MasterEq PropMaster KernelGen ElPh PropElPh Rates PropRates PropGauge.
Import ListNotations.
Open Scope nat_scope.
Local Notation length := List.length.
Local Notation Cr := (Cx RRing).

Section Props.
Variables (n : nat) (name : string) (si : SI) (L : Lay).
Hypotheses (Hn : 1 <= n) (Hix : ix_of name n <> IxSsq) (SY : system n name si L).
Let LO : layout L := system_layout n name si L Hn Hix SY.
Let CH := system_charge n name si L Hn Hix SY.
Local Notation N := (charge_of si).
Variables (E : nat -> R) (it : nat) (quad : R -> R -> R -> R) (digamma_re : R -> R).
(** the leads before and after *)
Variables (nl : nat) (T : nat -> nat -> nat -> Cr) (mu tl dm dp : nat -> R).
Variables (nl' : nat) (mu' tl' dm' dp' : nat -> R).
Variable U : nat -> nat -> Cr.
Add Ring CrLE : (rth (Cx RRing)).
Local Open Scope rng_scope.
Definition isometry : Prop := forall m m', m < nl -> m' < nl -> rsum (fun l => CRing.conj (U l m) * U l m') (seq 0 nl') = (if Nat.eqb m m' then 1 else 0 : Cr).
Definition alike (l m : nat) : Prop := mu' l = mu m /\ tl' l = tl m /\ dm' l = dm m /\ dp' l = dp m.
Hypothesis HU : isometry.
Hypothesis HA : forall l m, l < nl' -> m < nl -> U l m <> 0 -> alike l m.
Definition mixed_T (l a b : nat) : Cr := rsum (fun m => (if N b <? N a then U l m else CRing.conj (U l m)) * T m a b) (seq 0 nl).

(** *** Sums over leads *)
Definition mixU (x x' : nat -> Cr) : Prop := forall l, l < nl' -> x' l = rsum (fun m => U l m * x m) (seq 0 nl).
Definition mixD (x x' : nat -> Cr) : Prop := forall l, l < nl' -> x' l = rsum (fun m => CRing.conj (U l m) * x m) (seq 0 nl).
Definition same {A : Type} (z z' : nat -> A) : Prop := forall l m, l < nl' -> m < nl -> U l m <> 0 -> z' l = z m.
Lemma Cr_dec : forall z : Cr, z = 0 \/ z <> 0.
Proof.
  intros [a b]. destruct (Req_dec a 0%R) as [->|Ha]; [destruct (Req_dec b 0%R) as [->|Hb]|].
  - left. reflexivity.
  - right. intros X. apply (f_equal im) in X. contradiction.
  - right. intros X. apply (f_equal re) in X. contradiction.
Qed.
Lemma same_mul : forall z z' l m, same z z' -> l < nl' -> m < nl -> U l m * z' l = U l m * z m.
Proof. intros z z' l m H Hl Hm. destruct (Cr_dec (U l m)) as [->|X]; [ring|]. now rewrite (H l m). Qed.
Lemma mix_sum : forall x x' y y' z z', mixD x x' -> mixU y y' -> same z z' ->
  rsum (fun l => x' l * y' l * z' l) (seq 0 nl') = rsum (fun m => x m * y m * z m) (seq 0 nl).
Proof.
  intros x x' y y' z z' Hx Hy Hz.
  transitivity (rsum (fun l => rsum (fun m => rsum (fun m' => CRing.conj (U l m) * U l m' * (x m * y m' * z m')) (seq 0 nl)) (seq 0 nl)) (seq 0 nl')).
  { apply (rsum_ext Cr). intros l Hl. apply in_seq in Hl. rewrite (Hx l), (Hy l) by lia.
    rewrite <- !(rsum_mul_r Cr). apply (rsum_ext Cr). intros m Hm. apply in_seq in Hm. rewrite <- (rsum_mul_l Cr), <- (rsum_mul_r Cr). apply (rsum_ext Cr). intros m' Hm'. apply in_seq in Hm'.
    transitivity (CRing.conj (U l m) * x m * y m' * (U l m' * z' l)); [ring|]. rewrite (same_mul z z') by (auto; lia). ring. }
  rewrite (rsum_swap Cr). apply (rsum_ext Cr). intros m Hm. apply in_seq in Hm. rewrite (rsum_swap Cr).
  rewrite (rsum_single Cr _ _ (seq 0 nl) m).
  - rewrite (rsum_mul_r Cr), HU by lia. rewrite Nat.eqb_refl. ring.
  - apply seq_NoDup.
  - apply in_seq. lia.
  - intros m' Hm' Hne. apply in_seq in Hm'. rewrite (rsum_mul_r Cr), HU by lia. destruct (Nat.eqb_spec m m'); [congruence|]. ring.
Qed.
Lemma sum_DU : forall x x' y y' z z', mixD x x' -> mixU y y' -> same z z' ->
  rsum (fun l => x' l * y' l * z' l) (seq 0 nl') = rsum (fun m => x m * y m * z m) (seq 0 nl).
Proof. exact mix_sum. Qed.
Lemma sum_UD : forall x x' y y' z z', mixU x x' -> mixD y y' -> same z z' ->
  rsum (fun l => x' l * y' l * z' l) (seq 0 nl') = rsum (fun m => x m * y m * z m) (seq 0 nl).
Proof.
  intros x x' y y' z z' Hx Hy Hz. transitivity (rsum (fun l => y' l * x' l * z' l) (seq 0 nl')); [apply (rsum_ext Cr); intros; ring|].
  rewrite (mix_sum y y' x x' z z') by auto. apply (rsum_ext Cr); intros; ring.
Qed.
Lemma mixU_conj : forall x x', mixU x x' -> mixD (fun m => CRing.conj (x m)) (fun l => CRing.conj (x' l)).
Proof. intros x x' H l Hl. rewrite H, (rsum_conj RRing) by auto. apply (rsum_ext Cr). intros. apply conj_mul. Qed.
Lemma mixD_conj : forall x x', mixD x x' -> mixU (fun m => CRing.conj (x m)) (fun l => CRing.conj (x' l)).
Proof. intros x x' H l Hl. rewrite H, (rsum_conj RRing) by auto. apply (rsum_ext Cr). intros. rewrite conj_mul, conj_conj. reflexivity. Qed.
(** amplitudes between neighbouring charges *)
Definition mixed (F F' : nat -> nat -> nat -> Cr) : Prop := forall q a b, (0 <= q)%Z -> In a (states L (q + 1)) -> In b (states L q) ->
  mixU (fun m => F m a b) (fun l => F' l a b) /\ mixD (fun m => F m b a) (fun l => F' l b a).
Lemma mixed_dn : forall F F' q a b, mixed F F' -> (0 <= q)%Z -> In a (states L (q - 1)) -> In b (states L q) ->
  mixU (fun m => F m b a) (fun l => F' l b a) /\ mixD (fun m => F m a b) (fun l => F' l a b).
Proof.
  intros F F' q a b HF Hq Ha Hb. destruct (Z.eq_dec q 0) as [->|Hne]; [change (0 - 1)%Z with (-1)%Z in Ha; rewrite (lo_below L LO) in Ha; destruct Ha|].
  apply (HF (q - 1)%Z); auto; [lia|]. now replace (q - 1 + 1)%Z with q by lia.
Qed.
Lemma T_mixed : mixed T mixed_T.
Proof.
  intros q a b Hq Ha Hb. assert (NB : N b < N a) by (rewrite (CH (q + 1)%Z a), (CH q b) by (auto; lia); lia).
  split; intros l Hl; unfold mixed_T.
  - destruct (Nat.ltb_spec (N b) (N a)); [reflexivity|lia].
  - destruct (Nat.ltb_spec (N a) (N b)); [lia|reflexivity].
Qed.
Local Notation pf := (pauli_fct L nl T E mu tl dm dp it).
Local Notation pf' := (pauli_fct L nl' mixed_T E mu' tl' dm' dp' it).
Local Notation lf := (lindblad_fct L nl T E mu tl dm dp it).
Local Notation lf' := (lindblad_fct L nl' mixed_T E mu' tl' dm' dp' it).
Local Notation vf := (vn1_fct L nl E mu tl dm dp it quad digamma_re).
Local Notation vf' := (vn1_fct L nl' E mu' tl' dm' dp' it quad digamma_re).
Local Notation ve := (vn1_fct_energy L nl E mu tl dm dp it quad digamma_re).
Local Notation ve' := (vn1_fct_energy L nl' E mu' tl' dm' dp' it quad digamma_re).
Lemma fp_same : forall x, same (fun m => fpauli mu tl dm dp it m x) (fun l => fpauli mu' tl' dm' dp' it l x).
Proof. intros x l m Hl Hm X. destruct (HA l m Hl Hm X) as (A & B & C & D). unfold fpauli. now rewrite A, B, C, D. Qed.
Lemma fv_same : forall x, same (fun m => fvn1 mu tl dm dp it quad digamma_re m x) (fun l => fvn1 mu' tl' dm' dp' it quad digamma_re l x).
Proof. intros x l m Hl Hm X. destruct (HA l m Hl Hm X) as (A & B & C & D). unfold fvn1. now rewrite A, B, C, D. Qed.
(** tables that depend on the lead only through its parameters *)
Definition same_table (F F' : nat -> nat -> bool -> Cr) : Prop := forall q c b x, (0 <= q)%Z -> In c (states L (q + 1)) -> In b (states L q) ->
  same (fun m => F m (ind1 L c b q) x) (fun l => F' l (ind1 L c b q) x).
Lemma same_table_dn : forall F F' q b a x, same_table F F' -> (0 <= q)%Z -> In a (states L (q - 1)) -> In b (states L q) ->
  same (fun m => F m (ind1 L b a (q - 1)) x) (fun l => F' l (ind1 L b a (q - 1)) x).
Proof.
  intros F F' q b a x HF Hq Ha Hb. destruct (Z.eq_dec q 0) as [->|Hne]; [change (0 - 1)%Z with (-1)%Z in Ha; rewrite (lo_below L LO) in Ha; destruct Ha|].
  apply HF; auto; [lia|]. now replace (q - 1 + 1)%Z with q by lia.
Qed.
Lemma vf_same : same_table vf vf'.
Proof. intros q c b x Hq Hc Hb l m Hl Hm X. rewrite !(vn1_fct_val L LO) by auto. f_equal. now apply (fv_same (E c - E b)%R). Qed.
Lemma ve_same : same_table ve ve'.
Proof. intros q c b x Hq Hc Hb l m Hl Hm X. rewrite !(vn1_fct_energy_val L LO) by auto. f_equal. now apply (fv_same (E c - E b)%R). Qed.
Lemma lf_mixed : mixed lf lf'.
Proof.
  intros q a b Hq Ha Hb. destruct (T_mixed q a b Hq Ha Hb) as (A & B).
  split; intros l Hl; destruct (lindblad_fct_val L LO nl' mixed_T E mu' tl' dm' dp' it l a b q Hq Ha Hb Hl) as (P & Q); [rewrite P, (A l Hl)|rewrite Q, (B l Hl)];
    rewrite <- (rsum_mul_l Cr); apply (rsum_ext Cr); intros m Hm; apply in_seq in Hm;
    destruct (lindblad_fct_val L LO nl T E mu tl dm dp it m a b q Hq Ha Hb ltac:(lia)) as (P' & Q'); [rewrite P'|rewrite Q'];
    (destruct (Cr_dec (U l m)) as [Z|X]; [rewrite Z, ?conj_0; ring|]; rewrite (fp_same (E a - E b)%R l m) by (auto; lia); ring).
Qed.

(** *** Kernels *)
Lemma same_conj : forall z z' : nat -> Cr, same z z' -> same (fun m => CRing.conj (z m)) (fun l => CRing.conj (z' l)).
Proof. intros z z' H l m Hl Hm X. now rewrite (H l m). Qed.
Lemma same_const : forall A (x : A), same (fun _ => x) (fun _ => x).
Proof. intros A x l m _ _ _. reflexivity. Qed.
Lemma sum_UDn : forall x x' y y' z z', mixU x x' -> mixD y y' -> same z z' ->
  rsum (fun l => - x' l * y' l * z' l) (seq 0 nl') = rsum (fun m => - x m * y m * z m) (seq 0 nl).
Proof.
  intros x x' y y' z z' Hx Hy Hz. transitivity (- rsum (fun l => x' l * y' l * z' l) (seq 0 nl')); [rewrite <- (rsum_opp Cr); apply (rsum_ext Cr); intros; ring|].
  rewrite (sum_UD x x' y y' z z') by auto. rewrite <- (rsum_opp Cr); apply (rsum_ext Cr); intros; ring.
Qed.
Lemma sum_DUn : forall x x' y y' z z', mixD x x' -> mixU y y' -> same z z' ->
  rsum (fun l => - x' l * y' l * z' l) (seq 0 nl') = rsum (fun m => - x m * y m * z m) (seq 0 nl).
Proof.
  intros x x' y y' z z' Hx Hy Hz. transitivity (- rsum (fun l => x' l * y' l * z' l) (seq 0 nl')); [rewrite <- (rsum_opp Cr); apply (rsum_ext Cr); intros; ring|].
  rewrite (sum_DU x x' y y' z z') by auto. rewrite <- (rsum_opp Cr); apply (rsum_ext Cr); intros; ring.
Qed.
Ltac side HT HF := match goal with
  | |- mixU (fun m => CRing.conj _) _ => apply mixD_conj; side HT HF
  | |- mixD (fun m => CRing.conj _) _ => apply mixU_conj; side HT HF
  | |- same (fun m => CRing.conj _) _ => apply same_conj; side HT HF
  | Ha : In ?a (states L (?q - 1)), Hb : In ?b (states L ?q), Hq : (0 <= ?q)%Z |- mixU (fun m => _ m ?b ?a) _ => exact (proj1 (mixed_dn _ _ q a b HT Hq Ha Hb))
  | Ha : In ?a (states L (?q - 1)), Hb : In ?b (states L ?q), Hq : (0 <= ?q)%Z |- mixD (fun m => _ m ?a ?b) _ => exact (proj2 (mixed_dn _ _ q a b HT Hq Ha Hb))
  | Ha : In ?a (states L (?q + 1)), Hb : In ?b (states L ?q), Hq : (0 <= ?q)%Z |- mixU (fun m => _ m ?a ?b) _ => exact (proj1 (HT q a b Hq Ha Hb))
  | Ha : In ?a (states L (?q + 1)), Hb : In ?b (states L ?q), Hq : (0 <= ?q)%Z |- mixD (fun m => _ m ?b ?a) _ => exact (proj2 (HT q a b Hq Ha Hb))
  | Ha : In ?a (states L (?q - 1)), Hb : In ?b (states L ?q), Hq : (0 <= ?q)%Z |- same (fun m => _ m (ind1 L ?b ?a (?q - 1)) ?x) _ => exact (same_table_dn _ _ q b a x HF Hq Ha Hb)
  | Ha : In ?a (states L (?q + 1)), Hb : In ?b (states L ?q), Hq : (0 <= ?q)%Z |- same (fun m => _ m (ind1 L ?a ?b ?q) ?x) _ => exact (HF q a b x Hq Ha Hb)
  end.
Ltac lsum HT HF := unfold leads; rewrite ?(rsum_minus Cr); repeat match goal with |- _ - _ = _ - _ => f_equal end;
  first [solve [apply sum_UD; side HT HF]|solve [apply sum_DU; side HT HF]|solve [apply sum_UDn; side HT HF]|solve [apply sum_DUn; side HT HF]].
Ltac part HT HF := match goal with
  | |- radd _ _ = radd _ _ => f_equal; apply (rsum_ext Cr); intros ? ?; cbv zeta; lsum HT HF
  | _ => lsum HT HF end.
Ltac cpl := unfold vn1_coupling, red_coupling, lindblad_coupling; cbv zeta; f_equal; [|f_equal];
  [apply flat_map_ext_in; intros [x y] Hxy; apply in_prod_iff in Hxy; destruct Hxy as (Hx & Hy); destruct (is_included _ _ _ _); [|reflexivity]; f_equal; f_equal
  |apply flat_map_ext_in; intros bpp Hbpp; f_equal; (destruct (is_included _ _ _ _); [|reflexivity]; f_equal; f_equal)
  |apply flat_map_ext_in; intros [x y] Hxy; apply in_prod_iff in Hxy; destruct Hxy as (Hx & Hy); destruct (is_included _ _ _ _); [|reflexivity]; f_equal; f_equal].
Lemma vn1_coupling_mixed : forall T' F F' c b bp, mixed T T' -> same_table F F' -> (0 <= c)%Z -> In b (states L c) -> In bp (states L c) ->
  vn1_coupling RRing L nl' T' F' b bp c = vn1_coupling RRing L nl T F b bp c.
Proof. intros T' F F' c b bp HT HF Hc Hb Hbp. cpl; part HT HF. Qed.
Lemma red_coupling_mixed : forall T' F F' c b bp, mixed T T' -> same_table F F' -> (0 <= c)%Z -> In b (states L c) -> In bp (states L c) ->
  red_coupling RRing L nl' T' F' b bp c = red_coupling RRing L nl T F b bp c.
Proof. intros T' F F' c b bp HT HF Hc Hb Hbp. cpl; part HT HF. Qed.
Lemma sum2_UD : forall x x' y y', mixU x x' -> mixD y y' -> rsum (fun l => x' l * y' l) (seq 0 nl') = rsum (fun m => x m * y m) (seq 0 nl).
Proof.
  intros x x' y y' Hx Hy. pose proof (sum_UD x x' y y' _ _ Hx Hy (same_const Cr 1)) as S.
  transitivity (rsum (fun l => x' l * y' l * 1) (seq 0 nl')); [apply (rsum_ext Cr); intros; ring|]. rewrite S. apply (rsum_ext Cr); intros; ring.
Qed.
Lemma sum2_DU : forall x x' y y', mixD x x' -> mixU y y' -> rsum (fun l => x' l * y' l) (seq 0 nl') = rsum (fun m => x m * y m) (seq 0 nl).
Proof.
  intros x x' y y' Hx Hy. pose proof (sum_DU x x' y y' _ _ Hx Hy (same_const Cr 1)) as S.
  transitivity (rsum (fun l => x' l * y' l * 1) (seq 0 nl')); [apply (rsum_ext Cr); intros; ring|]. rewrite S. apply (rsum_ext Cr); intros; ring.
Qed.
Lemma sumh_UD : forall k x x' y y', mixU x x' -> mixD y y' -> rsum (fun l => k * x' l * y' l) (seq 0 nl') = rsum (fun m => k * x m * y m) (seq 0 nl).
Proof.
  intros k x x' y y' Hx Hy. pose proof (sum_UD x x' y y' _ _ Hx Hy (same_const Cr k)) as S.
  transitivity (rsum (fun l => x' l * y' l * k) (seq 0 nl')); [apply (rsum_ext Cr); intros; ring|]. rewrite S. apply (rsum_ext Cr); intros; ring.
Qed.
Lemma sumh_DU : forall k x x' y y', mixD x x' -> mixU y y' -> rsum (fun l => k * x' l * y' l) (seq 0 nl') = rsum (fun m => k * x m * y m) (seq 0 nl).
Proof.
  intros k x x' y y' Hx Hy. pose proof (sum_DU x x' y y' _ _ Hx Hy (same_const Cr k)) as S.
  transitivity (rsum (fun l => x' l * y' l * k) (seq 0 nl')); [apply (rsum_ext Cr); intros; ring|]. rewrite S. apply (rsum_ext Cr); intros; ring.
Qed.
Ltac lsum2 HT := unfold leads; first [solve [apply sum2_UD; side HT HT]|solve [apply sum2_DU; side HT HT]|solve [apply sumh_UD; side HT HT]|solve [apply sumh_DU; side HT HT]].
Lemma lindblad_coupling_mixed : forall F F' h c b bp, mixed F F' -> (0 <= c)%Z -> In b (states L c) -> In bp (states L c) ->
  lindblad_coupling RRing L nl' h F' b bp c = lindblad_coupling RRing L nl h F b bp c.
Proof.
  intros F F' h c b bp HT Hc Hb Hbp. cpl; f_equal; match goal with
  | |- radd _ _ = radd _ _ => f_equal; apply (rsum_ext Cr); intros ? ?; lsum2 HT
  | _ => lsum2 HT end.
Qed.
Lemma same_ofR : forall z z' : nat -> R, same z z' -> same (fun m => @ofR RRing (z m) : Cr) (fun l => @ofR RRing (z' l)).
Proof. intros z z' H l m Hl Hm X. now rewrite (H l m). Qed.
Lemma same_times : forall z z' y y' : nat -> Cr, same z z' -> same y y' -> same (fun m => z m * y m) (fun l => z' l * y' l).
Proof. intros z z' y y' H G l m Hl Hm X. now rewrite (H l m), (G l m). Qed.
Lemma re_wsum : forall A (w : A -> R) (f : A -> Cr) l, @rsum RRing A (fun x => w x * re (f x))%R l = re (rsum (fun x => @ofR RRing (w x) * f x) l).
Proof.
  intros A w f l. induction l as [|x l IH]; [reflexivity|]. cbn [rsum]. rewrite re_add, IH, re_mul. cbn [ofR re im]. rring.
Qed.
(** what is summed over leads with the weights w: those of a group, the chemical potentials, … *)
Section Weights.
Variables w w' : nat -> R.
Hypothesis Hw : same w w'.
Lemma pauli_w : forall q c b x, (0 <= q)%Z -> In c (states L (q + 1)) -> In b (states L q) ->
  @rsum RRing _ (fun l => w' l * pf' l (ind1 L c b q) x)%R (seq 0 nl') = @rsum RRing _ (fun m => w m * pf m (ind1 L c b q) x)%R (seq 0 nl).
Proof.
  intros q c b x Hq Hc Hb. destruct (T_mixed q c b Hq Hc Hb) as (A & B).
  pose (z := fun m => (w m * (if x then snd else fst) (fpauli mu tl dm dp it m (E c - E b)))%R). pose (z' := fun l => (w' l * (if x then snd else fst) (fpauli mu' tl' dm' dp' it l (E c - E b)))%R).
  assert (Z : same z z') by (intros l m Hl Hm X; unfold z, z'; now rewrite (Hw l m Hl Hm X), (fp_same (E c - E b)%R l m Hl Hm X)).
  transitivity (re (rsum (fun l => mixed_T l b c * mixed_T l c b * @ofR RRing (z' l)) (seq 0 nl'))).
  - transitivity (@rsum RRing _ (fun l => z' l * re (rmul (mixed_T l b c) (mixed_T l c b)))%R (seq 0 nl')).
    + apply (rsum_ext RRing). intros l Hl. apply in_seq in Hl. rewrite (pauli_fct_val L LO) by (auto; lia). unfold z'. rring.
    + rewrite re_wsum. f_equal. apply (rsum_ext Cr). intros. ring.
  - rewrite (sum_DU _ _ _ _ _ _ B A (same_ofR z z' Z)).
    transitivity (@rsum RRing _ (fun l => z l * re (rmul (T l b c) (T l c b)))%R (seq 0 nl)).
    + rewrite re_wsum. f_equal. apply (rsum_ext Cr). intros. ring.
    + apply (rsum_ext RRing). intros l Hl. apply in_seq in Hl. rewrite (pauli_fct_val L LO) by (auto; lia). unfold z. rring.
Qed.
End Weights.
Lemma pauli_one : forall q c b x, (0 <= q)%Z -> In c (states L (q + 1)) -> In b (states L q) ->
  @rsum RRing _ (fun l => pf' l (ind1 L c b q) x) (seq 0 nl') = @rsum RRing _ (fun m => pf m (ind1 L c b q) x) (seq 0 nl).
Proof.
  intros q c b x Hq Hc Hb. pose proof (pauli_w (fun _ => 1%R) (fun _ => 1%R) (same_const R 1%R) q c b x Hq Hc Hb) as P.
  transitivity (@rsum RRing _ (fun l => 1 * pf' l (ind1 L c b q) x)%R (seq 0 nl')); [apply (rsum_ext RRing); intros; rring|]. rewrite P. apply (rsum_ext RRing); intros; rring.
Qed.
Lemma pauli_coupling_mixed : forall c b, (0 <= c)%Z -> In b (states L c) -> pauli_coupling RRing L nl' pf' b b c = pauli_coupling RRing L nl pf b b c.
Proof.
  intros c b Hc Hb. unfold pauli_coupling, leads. cbv zeta. f_equal; apply map_ext_in; intros a Ha; f_equal; rewrite ?(rsum_opp RRing); try apply (f_equal (@ropp RRing)).
  all: try (destruct (Z.eq_dec c 0) as [->|Hne]; [change (0 - 1)%Z with (-1)%Z in Ha; rewrite (lo_below L LO) in Ha; destruct Ha|]; apply pauli_one; auto; [lia|now replace (c - 1 + 1)%Z with c by lia]).
  all: now apply pauli_one.
Qed.
Lemma generate_mixed : forall cpl cpl', (forall c b bp, (0 <= c)%Z -> In b (states L c) -> In bp (states L c) -> cpl' b bp c = cpl b bp c) ->
  generate_kern RRing L E cpl' = generate_kern RRing L E cpl.
Proof.
  intros cpl cpl' H. unfold generate_kern. apply flat_map_ext_in. intros c Hc. apply charges_in in Hc. apply flat_map_ext_in. intros [b bp] Hp.
  apply combinations_wr_in in Hp. assert (X : In b (states L c) /\ In bp (states L c)).
  { destruct Hp as [(-> & Hb)|Hp]; auto. apply combinations2_in in Hp; [tauto|apply (lo_nodup L LO); lia]. }
  rewrite (H c b bp) by (try lia; tauto). reflexivity.
Qed.
Theorem C75_kernels : forall h,
  pauli_calls RRing L nl' pf' = pauli_calls RRing L nl pf /\
  lindblad_calls RRing L nl' h lf' E = lindblad_calls RRing L nl h lf E /\
  vn1_calls RRing L nl' mixed_T vf' E = vn1_calls RRing L nl T vf E /\
  red_calls RRing L nl' mixed_T vf' E = red_calls RRing L nl T vf E.
Proof.
  intros h. split; [|split; [|split]].
  - unfold pauli_calls, generate_kern_pauli. apply flat_map_ext_in. intros c Hc. apply charges_in in Hc. apply flat_map_ext_in. intros b Hb.
    destruct (is_unique L b b c); [|reflexivity]. apply pauli_coupling_mixed; [lia|exact Hb].
  - apply generate_mixed. intros. apply lindblad_coupling_mixed; auto. exact lf_mixed.
  - apply generate_mixed. intros. apply vn1_coupling_mixed; auto. exact T_mixed. exact vf_same.
  - apply generate_mixed. intros. apply red_coupling_mixed; auto. exact T_mixed. exact vf_same.
Qed.

(** *** Currents *)
Variables (phi : Z -> R) (h : R).
Definition weigh (k : nat) (w f : nat -> R) : R := @rsum RRing _ (fun l => w l * f l)%R (seq 0 k).
Lemma weigh_sum : forall k w A (f : nat -> A -> R) xs, weigh k w (fun l => @rsum RRing A (f l) xs) = @rsum RRing A (fun x => weigh k w (fun l => f l x)) xs.
Proof.
  intros k w A f xs. unfold weigh. rewrite <- (rsum_swap RRing). apply (rsum_ext RRing). intros l _.
  symmetry. exact (rsum_mul_l RRing A (f l) (w l) xs).
Qed.
Lemma weigh_re : forall k w (f : nat -> Cr), weigh k w (fun l => re (f l)) = re (rsum (fun l => @ofR RRing (w l) * f l) (seq 0 k)).
Proof. intros. apply re_wsum. Qed.
Lemma charges1_pos : forall q, In q (charges1 L) -> (0 <= q)%Z.
Proof. intros q H. unfold charges1 in H. apply in_map_iff in H. destruct H as (k & <- & _). lia. Qed.
Lemma cw_sum : forall k w A (f : nat -> A -> Cr) xs, rsum (fun l => @ofR RRing (w l) * rsum (f l) xs) (seq 0 k) = rsum (fun x => rsum (fun l => @ofR RRing (w l) * f l x) (seq 0 k)) xs.
Proof. intros k w A f xs. rewrite <- (rsum_swap Cr). apply (rsum_ext Cr). intros l _. now rewrite <- (rsum_mul_l Cr). Qed.
Lemma cw_add : forall k w (f g : nat -> Cr), rsum (fun l => @ofR RRing (w l) * (f l + g l)) (seq 0 k) = rsum (fun l => @ofR RRing (w l) * f l) (seq 0 k) + rsum (fun l => @ofR RRing (w l) * g l) (seq 0 k).
Proof. intros. rewrite <- (rsum_plus Cr). apply (rsum_ext Cr). intros. ring. Qed.
Section Weighted.
Variables w w' : nat -> R.
Hypothesis Hw : same w w'.
Let HwC : same (fun m => @ofR RRing (w m) : Cr) (fun l => @ofR RRing (w' l)) := same_ofR w w' Hw.
Lemma flow_w : forall q c b, (0 <= q)%Z -> In c (states L (q + 1)) -> In b (states L q) -> forall k : R,
  weigh nl' w' (fun l => k * pauli_flow RRing L phi pf' l c b q)%R = weigh nl w (fun m => k * pauli_flow RRing L phi pf m c b q)%R.
Proof.
  intros q c b Hq Hc Hb k. unfold weigh, pauli_flow. cbv zeta.
  assert (X : forall n0 (v : nat -> R) (F : nat -> nat -> bool -> R), @rsum RRing _ (fun l => v l * (k * @radd RRing (@rmul RRing (phi (ind0 L b b q)) (F l (ind1 L c b q) false)) (@rmul RRing (@ropp RRing (phi (ind0 L c c (q + 1)))) (F l (ind1 L c b q) true))))%R (seq 0 n0) =
    (k * phi (ind0 L b b q) * @rsum RRing _ (fun l => v l * F l (ind1 L c b q) false) (seq 0 n0) - k * phi (ind0 L c c (q + 1)) * @rsum RRing _ (fun l => v l * F l (ind1 L c b q) true) (seq 0 n0))%R).
  { intros n0 v F. induction (seq 0 n0) as [|y l IH]; cbn [rsum]; [rring|]. rewrite IH. rring. }
  rewrite !X. now rewrite !(pauli_w w w' Hw) by auto.
Qed.
Lemma pauli_cur_w : weigh nl' w' (pauli_current RRing L phi pf') = weigh nl w (pauli_current RRing L phi pf).
Proof.
  unfold pauli_current. rewrite !weigh_sum. apply (rsum_ext RRing). intros q Hq. apply charges1_pos in Hq. rewrite !weigh_sum. apply (rsum_ext RRing). intros c Hc.
  rewrite !weigh_sum. apply (rsum_ext RRing). intros b Hb. pose proof (flow_w q c b Hq Hc Hb 1%R) as X.
  assert (Y : forall k (f : nat -> R) v, weigh k v (fun l => 1 * f l)%R = weigh k v f) by (intros; unfold weigh; apply (rsum_ext RRing); intros; rring).
  rewrite !Y in X. exact X.
Qed.
Lemma pauli_en_w : weigh nl' w' (pauli_energy_current RRing L phi pf' E) = weigh nl w (pauli_energy_current RRing L phi pf E).
Proof.
  unfold pauli_energy_current. rewrite !weigh_sum. apply (rsum_ext RRing). intros q Hq. apply charges1_pos in Hq. rewrite !weigh_sum. apply (rsum_ext RRing). intros c Hc.
  rewrite !weigh_sum. apply (rsum_ext RRing). intros b Hb. exact (flow_w q c b Hq Hc Hb (@ropp RRing (@rsub RRing (E b) (E c)))).
Qed.
Lemma lindblad_term : forall F F' x (k : nat -> Cr) (zz : Cr) b bp q, mixed F F' -> (0 <= q)%Z -> In b (states L q) -> In bp (states L q) -> In x (states L (q - 1)) \/ In x (states L (q + 1)) ->
  rsum (fun l => @ofR RRing (w' l) * (k x * (F' l x b * zz * CRing.conj (F' l x bp)))) (seq 0 nl') =
  rsum (fun l => @ofR RRing (w l) * (k x * (F l x b * zz * CRing.conj (F l x bp)))) (seq 0 nl).
Proof.
  intros F F' x k zz b bp q HT Hq Hb Hbp Hx.
  assert (Z : same (fun m => @ofR RRing (w m) * (k x * zz)) (fun l => @ofR RRing (w' l) * (k x * zz))) by exact (same_times _ _ _ _ HwC (same_const Cr (k x * zz))).
  assert (X : rsum (fun l => F' l x b * CRing.conj (F' l x bp) * (@ofR RRing (w' l) * (k x * zz))) (seq 0 nl') = rsum (fun l => F l x b * CRing.conj (F l x bp) * (@ofR RRing (w l) * (k x * zz))) (seq 0 nl)).
  { destruct Hx as [Hx|Hx].
    - apply (sum_DU (fun m => F m x b) (fun l => F' l x b) (fun m => CRing.conj (F m x bp)) (fun l => CRing.conj (F' l x bp))); [side HT HT|side HT HT|exact Z].
    - apply (sum_UD (fun m => F m x b) (fun l => F' l x b) (fun m => CRing.conj (F m x bp)) (fun l => CRing.conj (F' l x bp))); [side HT HT|side HT HT|exact Z]. }
  transitivity (rsum (fun l => F' l x b * CRing.conj (F' l x bp) * (@ofR RRing (w' l) * (k x * zz))) (seq 0 nl')); [apply (rsum_ext Cr); intros; ring|].
  rewrite X. apply (rsum_ext Cr). intros. ring.
Qed.
Lemma lindblad_w : forall F F' (k1 k2 : nat -> nat -> nat -> Cr), mixed F F' ->
  let cur G (l : nat) := @rsum RRing _ (fun bc => @rsum RRing _ (fun p : nat * nat => let '(b, bp) := p in
     if is_included L b bp bc then
       re (rsum (fun a => k1 b bp a * (G l a b * Kernel.rho RRing L phi b bp bc * CRing.conj (G l a bp))) (states L (bc - 1)) +
           rsum (fun c => k2 b bp c * (G l c b * Kernel.rho RRing L phi b bp bc * CRing.conj (G l c bp))) (states L (bc + 1)))
     else @r0 RRing) (list_prod (states L bc) (states L bc))) (charges L) in
  weigh nl' w' (cur F') = weigh nl w (cur F).
Proof.
  intros F F' k1 k2 HT cur. unfold cur. rewrite !weigh_sum. apply (rsum_ext RRing). intros q Hq. apply charges_in in Hq. rewrite !weigh_sum. apply (rsum_ext RRing). intros [b bp] Hp.
  apply in_prod_iff in Hp. destruct Hp as (Hb & Hbp). destruct (is_included L b bp q).
  - rewrite !weigh_re. f_equal. rewrite !cw_add, !cw_sum. f_equal; apply (rsum_ext Cr); intros x Hx.
    + apply (lindblad_term F F' x (k1 b bp) _ b bp q HT); auto. lia.
    + apply (lindblad_term F F' x (k2 b bp) _ b bp q HT); auto. lia.
  - assert (Y : forall k v, weigh k v (fun _ => 0%R) = 0%R) by (intros; unfold weigh; apply (rsum_0 RRing); intros; rring). now rewrite !Y.
Qed.
Lemma weigh_ext : forall k v f g, (forall l, f l = g l) -> weigh k v f = weigh k v g.
Proof. intros k v f g H. unfold weigh. apply (rsum_ext RRing). intros l _. now rewrite H. Qed.
Lemma lindblad_cur_w : forall F F', mixed F F' -> weigh nl' w' (lindblad_current RRing L phi F') = weigh nl w (lindblad_current RRing L phi F).
Proof.
  intros F F' HT. pose proof (lindblad_w F F' (fun _ _ _ => - (1)) (fun _ _ _ => 1) HT) as X. cbv zeta in X.
  match type of X with weigh _ _ ?f = weigh _ _ ?g => transitivity (weigh nl' w' f); [|transitivity (weigh nl w g); [exact X|]] end; apply weigh_ext; intros l; unfold lindblad_current;
    apply (rsum_ext RRing); intros q _; apply (rsum_ext RRing); intros [b bp] _; destruct (is_included L b bp q); try reflexivity; f_equal; f_equal; apply (rsum_ext Cr); intros; ring.
Qed.
Lemma lindblad_en_w : forall F F', mixed F F' -> weigh nl' w' (lindblad_energy_current RRing L phi h F' E) = weigh nl w (lindblad_energy_current RRing L phi h F E).
Proof.
  intros F F' HT.
  exact (lindblad_w F F' (fun b bp a => @ofR RRing (@rsub RRing (E a) (@rmul RRing h (@radd RRing (E b) (E bp))))) (fun b bp a => @ofR RRing (@rsub RRing (E a) (@rmul RRing h (@radd RRing (E b) (E bp))))) HT).
Qed.
Lemma m2im_w : forall k v (f : nat -> Cr), weigh k v (fun l => m2im RRing (f l)) = m2im RRing (rsum (fun l => @ofR RRing (v l) * f l) (seq 0 k)).
Proof.
  intros k v f. unfold weigh. induction (seq 0 k) as [|x l IH]; cbn [rsum]; [unfold m2im; change (im (@r0 Cr)) with (@r0 RRing); rring|]. rewrite IH. unfold m2im. rewrite im_add, im_mul. cbn [ofR re im]. rring.
Qed.
Lemma pair_term : forall F F' x y c b (r : Cr), mixD (fun m => T m b c) (fun l => mixed_T l b c) -> mixU (fun m => T m x y) (fun l => mixed_T l x y) -> same F F' ->
  rsum (fun l => @ofR RRing (w' l) * (mixed_T l b c * mixed_T l x y * r * F' l)) (seq 0 nl') = rsum (fun l => @ofR RRing (w l) * (T l b c * T l x y * r * F l)) (seq 0 nl).
Proof.
  intros F F' x y c b r HD HUp HF.
  assert (Z : same (fun m => @ofR RRing (w m) * (r * F m)) (fun l => @ofR RRing (w' l) * (r * F' l))) by exact (same_times _ _ _ _ HwC (same_times _ _ _ _ (same_const Cr r) HF)).
  transitivity (rsum (fun l => mixed_T l b c * mixed_T l x y * (@ofR RRing (w' l) * (r * F' l))) (seq 0 nl')); [apply (rsum_ext Cr); intros; ring|].
  rewrite (sum_DU _ _ _ _ _ _ HD HUp Z). apply (rsum_ext Cr). intros. ring.
Qed.
Lemma zero_w : forall k v, rsum (fun l => @ofR RRing (v l) * 0) (seq 0 k) = (0 : Cr).
Proof. intros. apply (rsum_0 Cr). intros. ring. Qed.
Lemma vn1_cur_w : forall F F', same_table F F' -> weigh nl' w' (vn1_current RRing L phi mixed_T F') = weigh nl w (vn1_current RRing L phi T F).
Proof.
  intros F F' HF. unfold vn1_current. rewrite !weigh_sum. apply (rsum_ext RRing). intros q Hq. apply charges1_pos in Hq. rewrite !weigh_sum. apply (rsum_ext RRing). intros [c b] Hp.
  apply in_prod_iff in Hp. destruct Hp as (Hc & Hb). rewrite !m2im_w. f_equal. unfold vn1_amp. cbv zeta. rewrite !cw_add, !cw_sum. pose proof T_mixed as HT.
  f_equal; apply (rsum_ext Cr); intros x Hx; (destruct (is_included _ _ _ _); [|now rewrite !zero_w]).
  - apply (pair_term (fun m => F m (ind1 L c b q) false) (fun l => F' l (ind1 L c b q) false) c x c b); [apply (HT q c b); auto|apply (HT q c x); auto|apply HF; auto].
  - pose proof (pair_term (fun m => F m (ind1 L c b q) true) (fun l => F' l (ind1 L c b q) true) x b c b (Kernel.rho RRing L phi c x (q + 1)) (proj2 (HT q c b Hq Hc Hb)) (proj1 (HT q x b Hq Hx Hb)) (HF q c b true Hq Hc Hb)) as X.
    match type of X with ?u = ?v => transitivity u; [|transitivity v; [exact X|]] end; apply (rsum_ext Cr); intros; ring.
Qed.
Lemma red_cur_w : forall F F', same_table F F' -> weigh nl' w' (red_current RRing L phi mixed_T F') = weigh nl w (red_current RRing L phi T F).
Proof.
  intros F F' HF. unfold red_current. rewrite !weigh_sum. apply (rsum_ext RRing). intros q Hq. apply charges1_pos in Hq. rewrite !weigh_sum. apply (rsum_ext RRing). intros [c b] Hp.
  apply in_prod_iff in Hp. destruct Hp as (Hc & Hb). rewrite !m2im_w. f_equal. unfold red_amp. cbv zeta. rewrite !cw_add, !cw_sum. pose proof T_mixed as HT.
  f_equal; apply (rsum_ext Cr); intros x Hx; (destruct (is_included _ _ _ _); [|now rewrite !zero_w]).
  - apply (pair_term (fun m => F m (ind1 L c x q) false) (fun l => F' l (ind1 L c x q) false) c x c b); [apply (HT q c b); auto|apply (HT q c x); auto|apply HF; auto].
  - pose proof (pair_term (fun m => F m (ind1 L x b q) true) (fun l => F' l (ind1 L x b q) true) x b c b (Kernel.rho RRing L phi c x (q + 1)) (proj2 (HT q c b Hq Hc Hb)) (proj1 (HT q x b Hq Hx Hb)) (HF q x b true Hq Hx Hb)) as X.
    match type of X with ?u = ?v => transitivity u; [|transitivity v; [exact X|]] end; apply (rsum_ext Cr); intros; ring.
Qed.
End Weighted.
Definition totals (k : nat) (v m cur en : nat -> R) : R * R * R := (weigh k v cur, weigh k v en, weigh k v (heat_of RRing cur en m)).
Lemma totals_mixed : forall w w' cur cur' en en', same w w' ->
  (forall v v', same v v' -> weigh nl' v' cur' = weigh nl v cur) -> (forall v v', same v v' -> weigh nl' v' en' = weigh nl v en) ->
  totals nl' w' mu' cur' en' = totals nl w mu cur en.
Proof.
  intros w w' cur cur' en en' Hw HC HE. unfold totals. rewrite (HC w w' Hw), (HE w w' Hw). f_equal.
  assert (X : forall k v m c e, weigh k v (heat_of RRing c e m) = (weigh k v e - weigh k (fun l => v l * m l) c)%R).
  { intros k v m c e. unfold weigh, heat_of. induction (seq 0 k) as [|y l IH]; cbn [rsum]; [rring|]. rewrite IH. rring. }
  rewrite !X, (HE w w' Hw). f_equal. apply HC. intros l m Hl Hm Y. destruct (HA l m Hl Hm Y) as (A & _). now rewrite (Hw l m Hl Hm Y), A.
Qed.
Theorem C75_currents : forall w w', same w w' ->
  totals nl' w' mu' (pauli_current RRing L phi pf') (pauli_energy_current RRing L phi pf' E) =
    totals nl w mu (pauli_current RRing L phi pf) (pauli_energy_current RRing L phi pf E) /\
  totals nl' w' mu' (lindblad_current RRing L phi lf') (lindblad_energy_current RRing L phi h lf' E) =
    totals nl w mu (lindblad_current RRing L phi lf) (lindblad_energy_current RRing L phi h lf E) /\
  totals nl' w' mu' (vn1_current RRing L phi mixed_T vf') (vn1_current RRing L phi mixed_T ve') =
    totals nl w mu (vn1_current RRing L phi T vf) (vn1_current RRing L phi T ve) /\
  totals nl' w' mu' (red_current RRing L phi mixed_T vf') (red_current RRing L phi mixed_T ve') =
    totals nl w mu (red_current RRing L phi T vf) (red_current RRing L phi T ve).
Proof.
  intros w w' Hw. split; [|split; [|split]]; apply totals_mixed; auto; intros v v' Hv.
  - now apply pauli_cur_w.
  - now apply pauli_en_w.
  - apply lindblad_cur_w; auto. exact lf_mixed.
  - apply lindblad_en_w; auto. exact lf_mixed.
  - apply vn1_cur_w; auto. exact vf_same.
  - apply vn1_cur_w; auto. exact ve_same.
  - apply red_cur_w; auto. exact vf_same.
  - apply red_cur_w; auto. exact ve_same.
Qed.
End Props.
Print Assumptions C75_kernels.
Print Assumptions C75_currents.
