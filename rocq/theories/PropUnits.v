(** Property C74: units.  Energies times s and tunnelling amplitudes times rho_l with |rho_l|^2 = s (in particular a phase for each lead): the kernel is
    multiplied by s, the occupations stay, currents are multiplied by s, energy and heat currents by s^2. *)
From Coq Require Import String List Arith Lia ZArith Bool Permutation Ring Reals Lra FunctionalExtensionality.
From Verif Require Import Base Bits Indexing SsqProofs Qn DMIndex DMIndexProofs DMReach PropDMIndex CRing SpecFunc Layout Coherences Kernel KernelProofs
  PauliProofs CohProofs CohKernels CohCurrents PropKernel MasterEq PropMaster KernelGen ElPh PropElPh Rates PropRates MatrixFree PropSolve PropGauge.
Import ListNotations.
Open Scope nat_scope.
Local Notation length := List.length.
Local Notation Cr := (Cx RRing).

(** ** Scaled calls *)
Definition scale_call (s : R) (x : call RRing) : call RRing :=
  match x with
  | CEnergy _ e b bp c => CEnergy RRing (s * e)%R b bp c
  | CElem _ f b bp c a ap ac => CElem RRing (rmul (@ofR RRing s) f) b bp c a ap ac
  | CPauli _ fm fp bb aa => CPauli RRing (s * fm)%R (s * fp)%R bb aa
  end.
Lemma kh_scale : forall L s x, kh_updates RRing L (scale_call s x) = map (fun u => (fst u, (s * snd u)%R)) (kh_updates RRing L x).
Proof.
  intros L s [e b bp c|f b bp c a ap ac|fm fp bb aa]; cbn [scale_call kh_updates].
  - destruct (has_imag L _); [|reflexivity]. cbn [map fst snd]. do 3 f_equal. f_equal. rring.
  - assert (I : im (rmul (@ofR RRing s) f) = (s * im f)%R) by (rewrite im_mul; cbn [ofR re im]; rring).
    assert (Q : re (rmul (@ofR RRing s) f) = (s * re f)%R) by (rewrite re_mul; cbn [ofR re im]; rring).
    rewrite I, Q. assert (A : forall x y : R, @rmul RRing (s * x)%R y = (s * @rmul RRing x y)%R) by (intros; rring). assert (O : @ropp RRing (s * re f)%R = (s * @ropp RRing (re f))%R) by rring.
    rewrite !A, O. destruct (has_imag L (ind0 L a ap ac)), (has_imag L (ind0 L b bp c)); reflexivity.
  - reflexivity.
Qed.
Lemma flat_map_map : forall A B C (f : A -> list B) (g : B -> C) l, map g (flat_map f l) = flat_map (fun x => map g (f x)) l.
Proof. intros. induction l as [|x l IH]; [reflexivity|]. cbn [flat_map]. now rewrite map_app, IH. Qed.
Lemma map_flat_map : forall A B C (f : A -> B) (g : B -> list C) l, flat_map g (map f l) = flat_map (fun x => g (f x)) l.
Proof. intros. induction l as [|x l IH]; [reflexivity|]. cbn [flat_map map]. now rewrite IH. Qed.
Lemma kern_scale : forall L s calls ij, kern_of RRing L (map (scale_call s) calls) ij = (s * kern_of RRing L calls ij)%R.
Proof.
  intros L s calls ij. unfold kern_of. rewrite !run_updates_sum. unfold zeros.
  assert (E : flat_map (kh_updates RRing L) (map (scale_call s) calls) = map (fun u => (fst u, (s * snd u)%R)) (flat_map (kh_updates RRing L) calls)).
  { rewrite map_flat_map, flat_map_map. apply flat_map_ext. intros x. apply kh_scale. }
  rewrite E, rsum_map. cbn [fst snd].
  assert (S : @rsum RRing _ (fun u : Z * Z * R => if eqZZ ij (fst u) then (s * snd u)%R else @r0 RRing) (flat_map (kh_updates RRing L) calls) =
    @rmul RRing s (@rsum RRing _ (fun u : Z * Z * R => if eqZZ ij (fst u) then snd u else @r0 RRing) (flat_map (kh_updates RRing L) calls))).
  { rewrite <- (rsum_mul_l RRing). apply (rsum_ext RRing). intros u _. destruct (eqZZ ij (fst u)); rring. }
  rewrite S. set (X := @rsum RRing _ _ _). change ((0 + s * X = s * (0 + X))%R). ring.
Qed.

(** ** Lead functions *)
Open Scope R_scope.
Lemma ratio : forall s x t, s <> 0 -> t <> 0 -> (s * x) / (s * t) = x / t.
Proof. intros. field. auto. Qed.
Lemma ratio_sub : forall s x y t, s <> 0 -> t <> 0 -> (s * x - s * y) / (s * t) = (x - y) / t.
Proof. intros. field. auto. Qed.
Lemma func_pauli_scale : forall s e mu T Dm Dp it, s <> 0 -> T <> 0 -> func_pauli (s * e) (s * mu) (s * T) (s * Dm) (s * Dp) it = func_pauli e mu T Dm Dp it.
Proof. intros. unfold func_pauli. now rewrite !ratio_sub by assumption. Qed.
Definition scale_energy (s : R) (x : Cr * Cr * Cr * Cr) : Cr * Cr * Cr * Cr :=
  let '(c0, c1, e0, e1) := x in (c0, c1, rmul (@ofR RRing s) e0, rmul (@ofR RRing s) e1).
Lemma func_1vN_scale : forall quad dg s e mu T Dm Dp it, s <> 0 -> T <> 0 ->
  func_1vN quad dg (s * e) (s * mu) (s * T) (s * Dm) (s * Dp) it = scale_energy s (func_1vN quad dg e mu T Dm Dp it).
Proof.
  intros quad dg s e mu T Dm Dp it Hs HT. unfold func_1vN, scale_energy. rewrite !ratio_sub, !ratio by assumption.
  destruct it as [|[|[|[|it]]]]. all: match goal with |- (?a, ?b, ?c, ?e) = (?a', ?b', ?c', ?e') => assert (QC : c = c'); [|assert (QE : e = e'); [|exact (f_equal2 (fun x y => (a, b, x, y)) QC QE)]] end.
  all: apply cplx_eq; rewrite ?re_add, ?im_add, ?re_mul, ?im_mul; rsimp; rewrite ?re_add, ?im_add, ?re_mul, ?im_mul; rsimp; rewrite ?re_add, ?im_add, ?re_mul, ?im_mul; rsimp; rewrite ?re_add, ?im_add, ?re_mul, ?im_mul; rsimp; match goal with |- @eq _ ?u ?v => change (@eq R u v) end; ring.
Qed.

(** ** Tables *)
Lemma run_writes_mapi : forall I V W ieq (g : I -> V -> W) us m i, g i (@run_writes I V ieq us m i) = run_writes ieq (map (fun u => (fst u, g (fst u) (snd u))) us) (fun i => g i (m i)) i.
Proof.
  intros I V W ieq g us. induction us as [|u us IH]; intros m i; [reflexivity|]. cbn [map]. unfold run_writes in *. cbn [fold_left]. rewrite IH.
  f_equal. apply functional_extensionality. intros k. unfold set_at. cbn [fst snd]. destruct (ieq k (fst u)) as [->|]; reflexivity.
Qed.
Lemma each_up : forall L nl A (f g : nat -> nat -> Z -> nat -> list A),
  (forall c b q l, (0 <= q)%Z -> In c (states L (q + 1)) -> In b (states L q) -> f c b q l = g c b q l) -> each L nl f = each L nl g.
Proof.
  intros L nl A f g H. unfold each. apply flat_map_ext_in. intros q Hq. apply flat_map_ext_in. intros [c b] Hp. apply flat_map_ext_in. intros l _.
  apply in_prod_iff in Hp. unfold charges1 in Hq. apply in_map_iff in Hq. destruct Hq as (k & <- & _). apply H; try tauto. lia.
Qed.
Section Props.
Variables (n : nat) (name : string) (si : SI) (L : Lay).
Hypotheses (Hn : (1 <= n)%nat) (Hix : ix_of name n <> IxSsq) (SY : system n name si L).
Let LO : layout L := system_layout n name si L Hn Hix SY.
Let CH := system_charge n name si L Hn Hix SY.
Local Notation N := (charge_of si).
Variables (nl : nat) (T : nat -> nat -> nat -> Cr) (E mu tl dm dp : nat -> R) (it : nat) (quad : R -> R -> R -> R) (digamma_re : R -> R).
Variables (s : R) (rho_ : nat -> Cr).
Hypothesis Hs : s <> 0.
Hypothesis Hrho : forall l, rmul (rho_ l) (conj (rho_ l)) = @ofR RRing s.
Hypothesis Htl : forall l, tl l <> 0.
Add Ring CrPU : (rth (Cx RRing)).
Definition unit_T (l a b : nat) : Cr := rmul (if (N b <? N a)%nat then rho_ l else conj (rho_ l)) (T l a b).
Definition unit_ (x : nat -> R) (i : nat) : R := s * x i.
Local Notation E' := (unit_ E).
Local Notation pf := (pauli_fct L nl T E mu tl dm dp it).
Local Notation pf' := (pauli_fct L nl unit_T E' (unit_ mu) (unit_ tl) (unit_ dm) (unit_ dp) it).
Local Notation lf := (lindblad_fct L nl T E mu tl dm dp it).
Local Notation lf' := (lindblad_fct L nl unit_T E' (unit_ mu) (unit_ tl) (unit_ dm) (unit_ dp) it).
Local Notation vf := (vn1_fct L nl E mu tl dm dp it quad digamma_re).
Local Notation vf' := (vn1_fct L nl E' (unit_ mu) (unit_ tl) (unit_ dm) (unit_ dp) it quad digamma_re).
Local Notation ve := (vn1_fct_energy L nl E mu tl dm dp it quad digamma_re).
Local Notation ve' := (vn1_fct_energy L nl E' (unit_ mu) (unit_ tl) (unit_ dm) (unit_ dp) it quad digamma_re).
Local Notation S_ := (@ofR RRing s).
Lemma up_of : forall F q a b l, (0 <= q)%Z -> In a (states L (q + 1)) -> In b (states L q) -> (forall l a b, F l a b = rmul (if (N b <? N a)%nat then rho_ l else conj (rho_ l)) (T l a b)) ->
  F l a b = rmul (rho_ l) (T l a b) /\ F l b a = rmul (conj (rho_ l)) (T l b a).
Proof.
  intros F q a b l Hq Ha Hb HF. rewrite !HF. rewrite (CH (q + 1)%Z a), (CH q b) by (auto; lia).
  destruct (Nat.ltb_spec (Z.to_nat q) (Z.to_nat (q + 1))); [|lia]. destruct (Nat.ltb_spec (Z.to_nat (q + 1)) (Z.to_nat q)); [lia|]. auto.
Qed.
Lemma fp_unit : forall l c b, fpauli (unit_ mu) (unit_ tl) (unit_ dm) (unit_ dp) it l (E' c - E' b) = fpauli mu tl dm dp it l (E c - E b).
Proof. intros l c b. unfold fpauli, unit_. replace (s * E c - s * E b) with (s * (E c - E b)) by ring. now apply func_pauli_scale. Qed.
Lemma fv_unit : forall l c b, fvn1 (unit_ mu) (unit_ tl) (unit_ dm) (unit_ dp) it quad digamma_re l (E' c - E' b) = scale_energy s (fvn1 mu tl dm dp it quad digamma_re l (E c - E b)).
Proof. intros l c b. unfold fvn1, unit_. replace (s * E c - s * E b) with (s * (E c - E b)) by ring. now apply func_1vN_scale. Qed.
Lemma pauli_unit : forall l k q, pf' l k q = s * pf l k q.
Proof.
  intros l k q. unfold pauli_fct. rewrite (run_writes_map _ _ _ eqk (fun x => s * x)). rewrite map_each. cbn [fst].
  replace (fun _ : nat * nat * bool => s * 0) with (fun _ : nat * nat * bool => 0) by (apply functional_extensionality; intros _; ring).
  apply run_writes_ext. apply each_up. intros c b z l' Hq Hc Hb. cbv zeta. cbn [map fst snd]. rewrite fp_unit.
  destruct (up_of unit_T z c b l' Hq Hc Hb (fun _ _ _ => eq_refl)) as (-> & ->).
  assert (X : re (rmul (rmul (conj (rho_ l')) (T l' b c)) (rmul (rho_ l') (T l' c b))) = s * re (rmul (T l' b c) (T l' c b))).
  { transitivity (re (rmul S_ (rmul (T l' b c) (T l' c b)))); [f_equal; rewrite <- (Hrho l'); ring|]. rewrite re_mul. cbn [ofR re im]. rring. }
  rewrite X. rewrite !Rmult_assoc. reflexivity.
Qed.
Lemma lindblad_unit : forall l a b, lf' l a b = rmul (if (N b <? N a)%nat then rho_ l else conj (rho_ l)) (lf l a b).
Proof.
  intros l a b. unfold lindblad_fct.
  pose proof (run_writes_mapi _ _ _ eq3 (fun (k : nat * nat * nat) (x : Cr) => rmul (if (N (snd k) <? N (snd (fst k)))%nat then rho_ (fst (fst k)) else conj (rho_ (fst (fst k)))) x)) as M.
  specialize (M (each L nl (fun b a q l => let rez := fpauli mu tl dm dp it l (E b - E a)%R in
      [((l, b, a), rmul (@ofR RRing (sqrt (fst rez))) (T l b a)); ((l, a, b), rmul (@ofR RRing (sqrt (snd rez))) (T l a b))])) (fun _ => r0) (l, a, b)).
  cbn [fst snd] in M. rewrite M. clear M. rewrite map_each.
  match goal with |- _ = run_writes _ _ ?f _ => replace f with (fun _ : nat * nat * nat => @r0 Cr) by (apply functional_extensionality; intros ?; ring) end.
  apply run_writes_ext. apply each_up. intros c x z l' Hq Hc Hb. cbv zeta. cbn [map fst snd]. rewrite fp_unit. unfold unit_T.
  f_equal; [f_equal; ring|]. f_equal. f_equal. ring.
Qed.
Lemma vn1_unit : forall l k q, vf' l k q = vf l k q.
Proof.
  intros l k q. unfold vn1_fct. apply run_writes_ext. apply each_ext. intros c b z l'. cbv zeta. rewrite fv_unit. unfold scale_energy. destruct (fvn1 _ _ _ _ _ _ _ _ _) as [[[c0 c1] e0] e1]. reflexivity.
Qed.
Lemma vn1e_unit : forall l k q, ve' l k q = rmul S_ (ve l k q).
Proof.
  intros l k q. unfold vn1_fct_energy. rewrite (run_writes_map _ _ _ eqk (fun x : Cr => rmul S_ x)). rewrite map_each. cbn [fst].
  match goal with |- _ = run_writes _ _ ?f _ => replace f with (fun _ : nat * nat * bool => @r0 Cr) by (apply functional_extensionality; intros ?; ring) end.
  apply run_writes_ext. apply each_ext. intros c b z l'. cbv zeta. rewrite fv_unit. unfold scale_energy. destruct (fvn1 _ _ _ _ _ _ _ _ _) as [[[c0 c1] e0] e1]. reflexivity.
Qed.
Theorem C74_tables : (forall l k q, pf' l k q = s * pf l k q) /\
  (forall l a b, lf' l a b = rmul (if (N b <? N a)%nat then rho_ l else conj (rho_ l)) (lf l a b)) /\
  (forall l k q, vf' l k q = vf l k q) /\ (forall l k q, ve' l k q = rmul S_ (ve l k q)).
Proof. exact (Logic.conj pauli_unit (Logic.conj lindblad_unit (Logic.conj vn1_unit vn1e_unit))). Qed.

(** *** Kernels *)
Definition turned (F F' : nat -> nat -> nat -> Cr) : Prop := forall l a b, F' l a b = rmul (if (N b <? N a)%nat then rho_ l else CRing.conj (rho_ l)) (F l a b).
Lemma turned_up : forall F F' q a b l, turned F F' -> (0 <= q)%Z -> In a (states L (q + 1)) -> In b (states L q) ->
  F' l a b = rmul (rho_ l) (F l a b) /\ F' l b a = rmul (CRing.conj (rho_ l)) (F l b a).
Proof.
  intros F F' q a b l HF Hq Ha Hb. rewrite !HF. rewrite (CH (q + 1)%Z a), (CH q b) by (auto; lia).
  destruct (Nat.ltb_spec (Z.to_nat q) (Z.to_nat (q + 1))); [|lia]. destruct (Nat.ltb_spec (Z.to_nat (q + 1)) (Z.to_nat q)); [lia|]. auto.
Qed.
Lemma turned_dn : forall F F' q a b l, turned F F' -> (0 <= q)%Z -> In a (states L (q - 1)) -> In b (states L q) ->
  F' l b a = rmul (rho_ l) (F l b a) /\ F' l a b = rmul (CRing.conj (rho_ l)) (F l a b).
Proof.
  intros F F' q a b l HF Hq Ha Hb. destruct (Z.eq_dec q 0) as [->|Hne]; [change (0 - 1)%Z with (-1)%Z in Ha; rewrite (lo_below L LO) in Ha; destruct Ha|].
  apply (turned_up F F' (q - 1)%Z); auto; [lia|]. now replace (q - 1 + 1)%Z with q by lia.
Qed.
Lemma generate_unit : forall cpl cpl', (forall c b bp, (0 <= c)%Z -> In b (states L c) -> In bp (states L c) -> cpl' b bp c = map (scale_call s) (cpl b bp c)) ->
  generate_kern RRing L E' cpl' = map (scale_call s) (generate_kern RRing L E cpl).
Proof.
  intros cpl cpl' H. unfold generate_kern. rewrite flat_map_map. apply flat_map_ext_in. intros c Hc. apply charges_in in Hc. rewrite flat_map_map. apply flat_map_ext_in. intros [b bp] Hp.
  apply combinations_wr_in in Hp. assert (X : In b (states L c) /\ In bp (states L c)).
  { destruct Hp as [(-> & Hb)|Hp]; auto. apply combinations2_in in Hp; [tauto|apply (lo_nodup L LO); lia]. }
  destruct (is_included L b bp c && is_unique L b bp c)%bool; [|reflexivity]. cbn [map scale_call]. rewrite (H c b bp) by (try lia; tauto).
  f_equal. f_equal. unfold unit_. rring.
Qed.
Lemma pauli_calls_unit : pauli_calls RRing L nl pf' = map (scale_call s) (pauli_calls RRing L nl pf).
Proof.
  unfold pauli_calls, generate_kern_pauli. rewrite flat_map_map. apply flat_map_ext. intros c. rewrite flat_map_map. apply flat_map_ext. intros b.
  destruct (is_unique L b b c); [|reflexivity]. unfold pauli_coupling. cbv zeta. rewrite map_app, !map_map. f_equal; apply map_ext; intros a; cbn [scale_call].
  all: f_equal; match goal with |- _ = (s * ?X)%R => change (s * X)%R with (@rmul RRing s X) end;
    rewrite <- (rsum_mul_l RRing); apply (rsum_ext RRing); intros l _; rewrite pauli_unit; rring.
Qed.
Ltac leads_ F F' HF := rewrite <- (rsum_mul_l Cr); apply (rsum_ext Cr); intros l _;
  repeat match goal with
  | Ha : In ?a (states L (?q - 1)), Hb : In ?b (states L ?q), Hq : (0 <= ?q)%Z |- context [F' l ?b ?a] => rewrite (proj1 (turned_dn F F' q a b l HF Hq Ha Hb))
  | Ha : In ?a (states L (?q - 1)), Hb : In ?b (states L ?q), Hq : (0 <= ?q)%Z |- context [F' l ?a ?b] => rewrite (proj2 (turned_dn F F' q a b l HF Hq Ha Hb))
  | Ha : In ?a (states L (?q + 1)), Hb : In ?b (states L ?q), Hq : (0 <= ?q)%Z |- context [F' l ?a ?b] => rewrite (proj1 (turned_up F F' q a b l HF Hq Ha Hb))
  | Ha : In ?a (states L (?q + 1)), Hb : In ?b (states L ?q), Hq : (0 <= ?q)%Z |- context [F' l ?b ?a] => rewrite (proj2 (turned_up F F' q a b l HF Hq Ha Hb))
  end; rewrite <- (Hrho l), ?conj_mul, ?conj_conj; ring.
Ltac sums_ F F' HF := match goal with
  | |- radd ?a ?b = rmul ?c (radd ?a2 ?b2) => let A := fresh in let B := fresh in
     assert (A : a = rmul c a2); [|assert (B : b = rmul c b2); [|rewrite A, B; ring]];
     rewrite <- (rsum_mul_l Cr); apply (rsum_ext Cr); intros ? ?; cbv zeta; leads_ F F' HF
  | _ => leads_ F F' HF end.
Ltac cpl_ F F' HF := unfold vn1_coupling, red_coupling, lindblad_coupling; cbv zeta; rewrite !map_app, !flat_map_map; f_equal; [|f_equal];
  [apply flat_map_ext_in; intros [x y] Hxy; apply in_prod_iff in Hxy; destruct Hxy as (Hx & Hy); destruct (is_included _ _ _ _); [|reflexivity]; cbn [map scale_call]; f_equal; f_equal
  |apply flat_map_ext_in; intros bpp Hbpp; rewrite map_app; f_equal; (destruct (is_included _ _ _ _); [|reflexivity]; cbn [map scale_call]; f_equal; f_equal)
  |apply flat_map_ext_in; intros [x y] Hxy; apply in_prod_iff in Hxy; destruct Hxy as (Hx & Hy); destruct (is_included _ _ _ _); [|reflexivity]; cbn [map scale_call]; f_equal; f_equal].
Lemma vn1_coupling_unit : forall T' F c b bp, turned T T' -> (0 <= c)%Z -> In b (states L c) -> In bp (states L c) ->
  vn1_coupling RRing L nl T' F b bp c = map (scale_call s) (vn1_coupling RRing L nl T F b bp c).
Proof. intros T' F c b bp HF Hc Hb Hbp. cpl_ T T' HF; sums_ T T' HF. Qed.
Lemma red_coupling_unit : forall T' F c b bp, turned T T' -> (0 <= c)%Z -> In b (states L c) -> In bp (states L c) ->
  red_coupling RRing L nl T' F b bp c = map (scale_call s) (red_coupling RRing L nl T F b bp c).
Proof. intros T' F c b bp HF Hc Hb Hbp. cpl_ T T' HF; sums_ T T' HF. Qed.
Lemma lindblad_coupling_unit : forall F F' h c b bp, turned F F' -> (0 <= c)%Z -> In b (states L c) -> In bp (states L c) ->
  lindblad_coupling RRing L nl h F' b bp c = map (scale_call s) (lindblad_coupling RRing L nl h F b bp c).
Proof.
  intros F F' h c b bp HF Hc Hb Hbp. cpl_ F F' HF;
    match goal with |- rmul (Ci RRing) ?x = rmul ?S (rmul _ ?y) => assert (X : x = rmul S y); [|rewrite X; ring] end; sums_ F F' HF.
Qed.
Theorem C74_kernels : forall h ij,
  kern_of RRing L (pauli_calls RRing L nl pf') ij = s * kern_of RRing L (pauli_calls RRing L nl pf) ij /\
  kern_of RRing L (lindblad_calls RRing L nl h lf' E') ij = s * kern_of RRing L (lindblad_calls RRing L nl h lf E) ij /\
  kern_of RRing L (vn1_calls RRing L nl unit_T vf' E') ij = s * kern_of RRing L (vn1_calls RRing L nl T vf E) ij /\
  kern_of RRing L (red_calls RRing L nl unit_T vf' E') ij = s * kern_of RRing L (red_calls RRing L nl T vf E) ij.
Proof.
  intros h ij. assert (TT : turned T unit_T) by (intros l a b; reflexivity). assert (LL : turned lf lf') by exact lindblad_unit.
  assert (V : vf' = vf) by (do 3 (apply functional_extensionality; intros ?); apply vn1_unit). rewrite V.
  unfold lindblad_calls, vn1_calls, red_calls. split; [|split; [|split]].
  - rewrite pauli_calls_unit. apply kern_scale.
  - rewrite (generate_unit (lindblad_coupling RRing L nl h lf)); [apply kern_scale|]. intros. now apply lindblad_coupling_unit.
  - rewrite (generate_unit (vn1_coupling RRing L nl T vf)); [apply kern_scale|]. intros. now apply vn1_coupling_unit.
  - rewrite (generate_unit (red_coupling RRing L nl T vf)); [apply kern_scale|]. intros. now apply red_coupling_unit.
Qed.
(** the kernel with one row replaced by the normalisation: the same solutions *)
Lemma solutions_unit : forall (k k' : Z * Z -> R) rows size r nv x, (forall ij, k' ij = s * k ij) ->
  (solves RRing rows size (replace_row RRing k' r nv) (set_entry RRing zeros r (1 : RRing)%R) x <->
   solves RRing rows size (replace_row RRing k r nv) (set_entry RRing zeros r (1 : RRing)%R) x).
Proof.
  intros k k' rows size r nv x H.
  assert (A : forall i, act RRing size (replace_row RRing k' r nv) x (Z.of_nat i) = (if Z.eq_dec (Z.of_nat i) r then 1 else s) * act RRing size (replace_row RRing k r nv) x (Z.of_nat i)).
  { intros i. unfold act. match goal with |- _ = (?c * ?X)%R => change (c * X)%R with (@rmul RRing c X) end. rewrite <- (rsum_mul_l RRing). apply (rsum_ext RRing). intros j _.
    unfold replace_row. cbn [fst snd]. destruct (Z.eq_dec (Z.of_nat i) r); rewrite ?H; rring. }
  unfold solves. split; intros S i Hi; specialize (S i Hi); rewrite A in *; unfold set_entry, zeros in *; destruct (Z.eq_dec (Z.of_nat i) r).
  - rewrite Rmult_1_l in S. exact S.
  - apply Rmult_integral in S. destruct S as [S|S]; [contradiction|exact S].
  - rewrite Rmult_1_l. exact S.
  - rewrite S. rring.
Qed.
Theorem C74_stationary : forall h rows size r nv x,
  let sol k := solves RRing rows size (replace_row RRing k r nv) (set_entry RRing zeros r (1 : RRing)%R) x in
  (sol (kern_of RRing L (pauli_calls RRing L nl pf')) <-> sol (kern_of RRing L (pauli_calls RRing L nl pf))) /\
  (sol (kern_of RRing L (lindblad_calls RRing L nl h lf' E')) <-> sol (kern_of RRing L (lindblad_calls RRing L nl h lf E))) /\
  (sol (kern_of RRing L (vn1_calls RRing L nl unit_T vf' E')) <-> sol (kern_of RRing L (vn1_calls RRing L nl T vf E))) /\
  (sol (kern_of RRing L (red_calls RRing L nl unit_T vf' E')) <-> sol (kern_of RRing L (red_calls RRing L nl T vf E))).
Proof.
  intros h rows size r nv x sol. unfold sol. pose proof (C74_kernels h) as K.
  split; [|split; [|split]]; apply solutions_unit; intros ij; apply (K ij).
Qed.

(** *** Currents *)
Variables (phi : Z -> R) (h : R).
Lemma charges1_pos : forall q, In q (charges1 L) -> (0 <= q)%Z.
Proof. intros q H. unfold charges1 in H. apply in_map_iff in H. destruct H as (k & <- & _). lia. Qed.
Lemma rsum_sc : forall (K : CRing) A (c : K) (f g : A -> K) l, (forall x, In x l -> g x = rmul c (f x)) -> rsum g l = rmul c (rsum f l).
Proof. intros K A c f g l H. rewrite <- (rsum_mul_l K). now apply rsum_ext. Qed.
Lemma flow_unit : forall l c b q, pauli_flow RRing L phi pf' l c b q = s * pauli_flow RRing L phi pf l c b q.
Proof. intros. unfold pauli_flow. cbv zeta. rewrite !pauli_unit. rring. Qed.
Lemma pauli_cur_unit : forall l, pauli_current RRing L phi pf' l = s * pauli_current RRing L phi pf l.
Proof. intros l. unfold pauli_current. apply (rsum_sc RRing). intros q _. apply (rsum_sc RRing). intros c _. apply (rsum_sc RRing). intros b _. apply flow_unit. Qed.
Lemma pauli_en_unit : forall l, pauli_energy_current RRing L phi pf' E' l = s * s * pauli_energy_current RRing L phi pf E l.
Proof.
  intros l. unfold pauli_energy_current. apply (rsum_sc RRing). intros q _. apply (rsum_sc RRing). intros c _. apply (rsum_sc RRing). intros b _. rewrite flow_unit. unfold unit_.
  rring.
Qed.
Ltac turn_ F F' HF l := repeat match goal with
  | Ha : In ?a (states L (?q - 1)), Hb : In ?b (states L ?q), Hq : (0 <= ?q)%Z |- context [F' l ?b ?a] => rewrite (proj1 (turned_dn F F' q a b l HF Hq Ha Hb))
  | Ha : In ?a (states L (?q - 1)), Hb : In ?b (states L ?q), Hq : (0 <= ?q)%Z |- context [F' l ?a ?b] => rewrite (proj2 (turned_dn F F' q a b l HF Hq Ha Hb))
  | Ha : In ?a (states L (?q + 1)), Hb : In ?b (states L ?q), Hq : (0 <= ?q)%Z |- context [F' l ?a ?b] => rewrite (proj1 (turned_up F F' q a b l HF Hq Ha Hb))
  | Ha : In ?a (states L (?q + 1)), Hb : In ?b (states L ?q), Hq : (0 <= ?q)%Z |- context [F' l ?b ?a] => rewrite (proj2 (turned_up F F' q a b l HF Hq Ha Hb))
  end.
Lemma re_sc : forall (c : R) (x : Cr), re (rmul (@ofR RRing c) x) = c * re x.
Proof. intros. rewrite re_mul. cbn [ofR re im]. rring. Qed.
Lemma ofR_sc : forall a b : R, @ofR RRing (a * b)%R = @rmul Cr (@ofR RRing a) (@ofR RRing b).
Proof. intros. apply cplx_eq; rewrite ?re_mul, ?im_mul; cbn [ofR re im]; rring. Qed.
Lemma lindblad_cur_unit : forall F F', turned F F' -> forall l, lindblad_current RRing L phi F' l = s * lindblad_current RRing L phi F l.
Proof.
  intros F F' HF l. unfold lindblad_current. apply (rsum_sc RRing). intros q Hq. apply charges_in in Hq. assert (H0 : (0 <= q)%Z) by lia.
  apply (rsum_sc RRing). intros [b bp] Hp. apply in_prod_iff in Hp. destruct Hp as (Hb & Hbp). destruct (is_included L b bp q); [|rring].
  match goal with |- re ?x = rmul s (re ?y) => assert (X : x = rmul S_ y) end; [|rewrite X; apply re_sc].
  match goal with |- radd ?a ?b = rmul ?c (radd ?a2 ?b2) => assert (A : a = rmul c a2); [|assert (B : b = rmul c b2); [|rewrite A, B; ring]] end.
  all: apply (rsum_sc Cr); intros a Ha; turn_ F F' HF l; rewrite <- (Hrho l), ?conj_mul, ?conj_conj; ring.
Qed.
Lemma lindblad_en_unit : forall F F', turned F F' -> forall l, lindblad_energy_current RRing L phi h F' E' l = s * s * lindblad_energy_current RRing L phi h F E l.
Proof.
  intros F F' HF l. unfold lindblad_energy_current. apply (rsum_sc RRing). intros q Hq. apply charges_in in Hq. assert (H0 : (0 <= q)%Z) by lia.
  apply (rsum_sc RRing). intros [b bp] Hp. apply in_prod_iff in Hp. destruct Hp as (Hb & Hbp). destruct (is_included L b bp q); [|rring].
  match goal with |- re ?x = rmul _ (re ?y) => assert (X : x = @rmul Cr (@ofR RRing (s * s)%R) y) end; [|rewrite X; apply re_sc].
  assert (EE : forall a, @ofR RRing (@rsub RRing (E' a) (@rmul RRing h (@radd RRing (E' b) (E' bp)))) = @rmul Cr S_ (@ofR RRing (@rsub RRing (E a) (@rmul RRing h (@radd RRing (E b) (E bp)))))).
  { intros a. rewrite <- ofR_sc. f_equal. unfold unit_. rring. }
  match goal with |- radd ?a ?b = rmul ?c (radd ?a2 ?b2) => assert (A : a = rmul c a2); [|assert (B : b = rmul c b2); [|rewrite A, B; ring]] end.
  all: apply (rsum_sc Cr); intros a Ha; rewrite EE; turn_ F F' HF l; rewrite ofR_sc; set (W := @ofR RRing (@rsub RRing _ _)); rewrite <- (Hrho l), ?conj_mul, ?conj_conj; ring.
Qed.
Lemma m2im_sc : forall (c : R) (x : Cr), m2im RRing (rmul (@ofR RRing c) x) = c * m2im RRing x.
Proof. intros c x. unfold m2im. rewrite im_mul. cbn [re im ofR]. rring. Qed.
Lemma vn1_cur_unit : forall (c : R) F F', (forall l k q, F' l k q = rmul (@ofR RRing c) (F l k q)) -> forall l,
  vn1_current RRing L phi unit_T F' l = s * c * vn1_current RRing L phi T F l.
Proof.
  intros c F F' M l. assert (HF : turned T unit_T) by (intros k a b; reflexivity). unfold vn1_current. apply (rsum_sc RRing). intros q Hq. apply charges1_pos in Hq.
  apply (rsum_sc RRing). intros [x b] Hp. apply in_prod_iff in Hp. destruct Hp as (Hx & Hb).
  match goal with |- m2im _ ?u = rmul _ (m2im _ ?v) => assert (X : u = @rmul Cr (@ofR RRing (s * c)%R) v) end; [|rewrite X; apply m2im_sc].
  unfold vn1_amp. cbv zeta.
  match goal with |- radd ?a ?b = rmul ?c (radd ?a2 ?b2) => assert (A : a = rmul c a2); [|assert (B : b = rmul c b2); [|rewrite A, B; ring]] end.
  all: apply (rsum_sc Cr); intros a Ha; destruct (is_included _ _ _ _); [|ring]; rewrite M; turn_ T unit_T HF l; rewrite ofR_sc, <- (Hrho l); ring.
Qed.
Lemma red_cur_unit : forall (c : R) F F', (forall l k q, F' l k q = rmul (@ofR RRing c) (F l k q)) -> forall l,
  red_current RRing L phi unit_T F' l = s * c * red_current RRing L phi T F l.
Proof.
  intros c F F' M l. assert (HF : turned T unit_T) by (intros k a b; reflexivity). unfold red_current. apply (rsum_sc RRing). intros q Hq. apply charges1_pos in Hq.
  apply (rsum_sc RRing). intros [x b] Hp. apply in_prod_iff in Hp. destruct Hp as (Hx & Hb).
  match goal with |- m2im _ ?u = rmul _ (m2im _ ?v) => assert (X : u = @rmul Cr (@ofR RRing (s * c)%R) v) end; [|rewrite X; apply m2im_sc].
  unfold red_amp. cbv zeta.
  match goal with |- radd ?a ?b = rmul ?c (radd ?a2 ?b2) => assert (A : a = rmul c a2); [|assert (B : b = rmul c b2); [|rewrite A, B; ring]] end.
  all: apply (rsum_sc Cr); intros a Ha; destruct (is_included _ _ _ _); [|ring]; rewrite M; turn_ T unit_T HF l; rewrite ofR_sc, <- (Hrho l); ring.
Qed.
Definition rescaled (x : R * R * R) : R * R * R := let '(c, e, q) := x in (s * c, s * s * e, s * s * q).
Theorem C74_currents : forall l,
  out (unit_ mu) (pauli_current RRing L phi pf') (pauli_energy_current RRing L phi pf' E') l =
    rescaled (out mu (pauli_current RRing L phi pf) (pauli_energy_current RRing L phi pf E) l) /\
  out (unit_ mu) (lindblad_current RRing L phi lf') (lindblad_energy_current RRing L phi h lf' E') l =
    rescaled (out mu (lindblad_current RRing L phi lf) (lindblad_energy_current RRing L phi h lf E) l) /\
  out (unit_ mu) (vn1_current RRing L phi unit_T vf') (vn1_current RRing L phi unit_T ve') l =
    rescaled (out mu (vn1_current RRing L phi T vf) (vn1_current RRing L phi T ve) l) /\
  out (unit_ mu) (red_current RRing L phi unit_T vf') (red_current RRing L phi unit_T ve') l =
    rescaled (out mu (red_current RRing L phi T vf) (red_current RRing L phi T ve) l).
Proof.
  intros l.
  assert (G : forall (cur cur' en en' : nat -> R), cur' l = s * cur l -> en' l = s * s * en l -> out (unit_ mu) cur' en' l = rescaled (out mu cur en l)).
  { intros cur cur' en en' H1 H2. unfold out, rescaled, heat_of. change (@rsub RRing) with Rminus. change (@rmul RRing) with Rmult. rewrite H1, H2. unfold unit_. f_equal. ring. }
  assert (V1 : forall l k q, vf' l k q = rmul (@ofR RRing 1) (vf l k q)).
  { intros. rewrite vn1_unit. change (@ofR RRing 1) with (@r1 Cr). ring. }
  split; [|split; [|split]]; apply G.
  - apply pauli_cur_unit.
  - apply pauli_en_unit.
  - apply lindblad_cur_unit. exact lindblad_unit.
  - apply lindblad_en_unit. exact lindblad_unit.
  - rewrite (vn1_cur_unit 1 vf vf' V1). ring.
  - apply vn1_cur_unit. exact vn1e_unit.
  - rewrite (red_cur_unit 1 vf vf' V1). ring.
  - apply red_cur_unit. exact vn1e_unit.
Qed.
End Props.
Print Assumptions C74_tables.
Print Assumptions C74_kernels.
Print Assumptions C74_stationary.
Print Assumptions C74_currents.
