(** C68, continued: the tables of func_1vN with itype=1, systems of the builder, and what fails otherwise. *)
From Coq Require Import String List Arith Lia ZArith Bool Permutation Ring Reals Lra.
From Verif Require Import Base Bits Indexing DMIndex DMReach PropDMIndex CRing SpecFunc Layout Kernel KernelProofs Fock Operators PropOperators PropKernel KernelGen MasterEq PropMaster
  Rates Rotate PropRotate TunnelSquare PropRTDBand PropRTDBandR PropRTDBandAll PropBandFirst.
Import ListNotations.
Open Scope string_scope.
Open Scope nat_scope.
Local Notation length := List.length.
Local Notation Cr := (Cx RRing).

Ltac toR := match goal with |- @eq _ ?u ?v => change (@eq R u v) end.
(** ** Real numbers: the tables phi1fct and phi1fct_energy *)
Section Tables.
Variables (L : Lay) (LO : layout L) (nl : nat) (E mu tl : nat -> R) (quad : R -> R -> R -> R) (digamma_re : R -> R).
Local Notation fct d := (vn1_fct L nl E mu tl (fun l => fst (d l)) (fun l => snd (d l)) 1 quad digamma_re).
Local Notation fct_energy d := (vn1_fct_energy L nl E mu tl (fun l => fst (d l)) (fun l => snd (d l)) 1 quad digamma_re).
(** leads.dlst: the edges (Dm, Dp) of every lead *)
Definition edges (d : nat -> R * R) : Prop := forall l, l < nl -> (tl l <> 0 /\ fst (d l) <> 0 /\ snd (d l) <> 0)%R.
(** the edges of every lead keep the ratio of their absolute values *)
Definition same_ratio (d d' : nat -> R * R) : Prop :=
  forall l, l < nl -> (Rabs (fst (d' l)) * Rabs (snd (d l)) = Rabs (fst (d l)) * Rabs (snd (d' l)))%R.
Variables d d' : nat -> R * R.
Hypotheses (ED : edges d) (ED' : edges d') (SR : same_ratio d d').
Definition dkap (l : nat) : RRing := (ln (Rabs (fst (d l))) - ln (Rabs (fst (d' l))))%R.
Lemma abs_div : forall x y, (y <> 0)%R -> (Rabs (x / y) = Rabs x / Rabs y)%R.
Proof. intros x y H. unfold Rdiv. rewrite Rabs_mult. now rewrite Rabs_inv. Qed.
Lemma ln_edge : forall x t, (x <> 0)%R -> (t <> 0)%R -> (ln (Rabs (x / t) / (2 * PI)) = ln (Rabs x) - ln (Rabs t) - ln (2 * PI))%R.
Proof.
  intros x t Hx Ht. pose proof (Rabs_pos_lt x Hx). pose proof (Rabs_pos_lt t Ht). pose proof PI_RGT_0.
  rewrite abs_div by auto.
  assert (D : forall a b, (0 < a)%R -> (0 < b)%R -> (ln (a / b) = ln a - ln b)%R).
  { intros a b Ha Hb. unfold Rdiv. rewrite ln_mult; [|auto|now apply Rinv_0_lt_compat]. rewrite ln_Rinv by auto. ring. }
  rewrite !D; try lra. now apply Rdiv_lt_0_compat.
Qed.
Lemma ratio_eq : forall l, l < nl -> (Rabs (fst (d' l) / tl l / (snd (d' l) / tl l)) = Rabs (fst (d l) / tl l / (snd (d l) / tl l)))%R.
Proof.
  intros l Hl. destruct (ED l Hl) as (H1 & H2 & H3), (ED' l Hl) as (_ & H4 & H5). specialize (SR l Hl).
  replace (fst (d' l) / tl l / (snd (d' l) / tl l))%R with (fst (d' l) / snd (d' l))%R by (field; auto).
  replace (fst (d l) / tl l / (snd (d l) / tl l))%R with (fst (d l) / snd (d l))%R by (field; auto).
  rewrite !abs_div by auto. pose proof (Rabs_pos_lt _ H3). pose proof (Rabs_pos_lt _ H5).
  apply (Rmult_eq_reg_r (Rabs (snd (d' l)) * Rabs (snd (d l)))%R); [|apply Rmult_integral_contrapositive; split; lra].
  transitivity (Rabs (fst (d' l)) * Rabs (snd (d l)))%R; [field; lra|]. rewrite SR. field. lra.
Qed.
Lemma fct_shift : tables_shifted RRing L nl dkap (fct d) (fct d').
Proof.
  intros l c b q s Hl Hq Hc Hb. rewrite !(vn1_fct_val L LO) by auto. unfold fvn1.
  destruct (ED l Hl) as (H1 & H2 & H3), (ED' l Hl) as (_ & H4 & H5). pose proof (ratio_eq l Hl) as RE.
  unfold pick, func_1vN, dkap. rewrite RE, !ln_edge by auto.
  destruct s; apply cplx_eq; rewrite ?re_add, ?im_add; rsimp; toR; ring.
Qed.
Lemma fct_energy_shift : etables_shifted RRing L nl E dkap
  (fun l s => if s then (snd (d l) - snd (d' l))%R else (fst (d l) - fst (d' l))%R) (fct_energy d) (fct_energy d').
Proof.
  intros l c b q s Hl Hq Hc Hb. rewrite !(vn1_fct_energy_val L LO) by auto. unfold fvn1.
  destruct (ED l Hl) as (H1 & H2 & H3), (ED' l Hl) as (_ & H4 & H5). pose proof (ratio_eq l Hl) as RE.
  unfold pick_e, func_1vN, dkap. rewrite RE, !ln_edge by auto.
  destruct s; apply cplx_eq; rewrite ?re_add, ?im_add, ?re_mul, ?im_mul, ?re_add, ?im_add; rsimp; toR; try ring;
    field; auto.
Qed.

(** with any nonzero edges the first tables change by the logarithms of the lower, the second by those of the upper edges *)
Theorem C68_edges : forall l c b q (s : bool), l < nl -> (0 <= q)%Z -> In c (states L (q + 1)) -> In b (states L q) ->
  let edge (x : nat -> R * R) := ln (Rabs (if s then snd (x l) else fst (x l))) in
  fct d' l (ind1 L c b q) s = radd (fct d l (ind1 L c b q) s) (@ofR RRing (edge d - edge d')%R).
Proof.
  clear SR. intros l c b q s Hl Hq Hc Hb. rewrite !(vn1_fct_val L LO) by auto. unfold fvn1.
  destruct (ED l Hl) as (H1 & H2 & H3), (ED' l Hl) as (_ & H4 & H5).
  assert (LR : forall x : nat -> R * R, (fst (x l) <> 0)%R -> (snd (x l) <> 0)%R ->
     ln (Rabs (fst (x l) / tl l / (snd (x l) / tl l))) = (ln (Rabs (fst (x l))) - ln (Rabs (snd (x l))))%R).
  { intros x Hx Hy. replace (fst (x l) / tl l / (snd (x l) / tl l))%R with (fst (x l) / snd (x l))%R by (field; auto).
    rewrite abs_div by auto. pose proof (Rabs_pos_lt _ Hx). pose proof (Rabs_pos_lt _ Hy). unfold Rdiv.
    rewrite ln_mult; [|auto|now apply Rinv_0_lt_compat]. rewrite ln_Rinv by auto. ring. }
  unfold pick, func_1vN. rewrite !LR, !ln_edge by auto.
  destruct s; apply cplx_eq; rewrite ?re_add, ?im_add; rsimp; toR; ring.
Qed.

Variables (N : nat -> nat) (T : nat -> Op RRing) (g : nat -> Cr).
Hypotheses (CH : forall c b, (0 <= c)%Z -> In b (states L c) -> N b = Z.to_nat c) (HT : KernelGen.hermitian RRing T)
  (SEL : one_electron RRing L N nl T) (SQ : squares RRing L nl T g).
Lemma half : radd (1 / 2 : RRing)%R (1 / 2 : RRing)%R = (1 : RRing)%R.
Proof. rsimp. lra. Qed.

(** the kernels, the currents and the energy currents of 1vN and Redfield *)
Theorem C68_tables :
  (forall i j, inr (ly_ndm0r L) i -> inr (ly_ndm0r L) j ->
     kern_of RRing L (vn1_calls RRing L nl T (fct d') E) (i, j) = kern_of RRing L (vn1_calls RRing L nl T (fct d) E) (i, j) /\
     kern_of RRing L (red_calls RRing L nl T (fct d') E) (i, j) = kern_of RRing L (red_calls RRing L nl T (fct d) E) (i, j)) /\
  (forall phi l, l < nl ->
     vn1_current RRing L phi T (fct d') l = vn1_current RRing L phi T (fct d) l /\
     red_current RRing L phi T (fct d') l = red_current RRing L phi T (fct d) l /\
     vn1_current RRing L phi T (fct_energy d') l = vn1_current RRing L phi T (fct_energy d) l /\
     red_current RRing L phi T (fct_energy d') l = red_current RRing L phi T (fct_energy d) l).
Proof.
  split.
  - intros i j Hi Hj. apply (C68_kernel RRing L LO N CH nl (1 / 2)%R T g half HT SEL SQ dkap _ _ fct_shift E i j Hi Hj).
  - intros phi l Hl.
    destruct (C68_current RRing L LO N CH nl (1 / 2)%R T g half HT SEL SQ dkap _ _ fct_shift phi l Hl) as (A & B).
    destruct (C68_energy_current RRing L LO N CH nl (1 / 2)%R T g half HT SEL SQ dkap E _ _ _ phi l fct_energy_shift Hl) as (A' & B').
    auto.
Qed.
End Tables.
Print Assumptions C68_edges.
Print Assumptions C68_tables.

(** ** Systems of the builder *)
Section Built.
Variables (n : nat) (name : string) (si : SI) (L : Lay) (nl : nat).
(** no state is removed *)
Hypotheses (RS : reachable_si n name [] si) (NS : ix_of name n <> IxSsq) (SY : system n name si L)
  (ALL : Permutation (cons_states L) (seq 0 (si_nmany si))).
Variables (tleads : list ((nat * nat) * Cr)) (Tba : nat * nat * nat -> Cr) (v : Vecs RRing) (ixp : ix) (T : nat -> nat -> nat -> Cr).
(** the amplitudes of tleads in the basis of orthonormal eigenvectors *)
Hypotheses (HTl : forall l i t, In ((l, i), t) tleads -> l < nl /\ i < n)
  (HS : ixp <> IxLin -> ixp <> IxCharge -> spin_conserving RRing n nl tleads)
  (EC : construct_Tba RRing si nl tleads zeros = Some Tba) (HX : ixp = IxLin \/ ixp = ix_of name n)
  (SH : shaped RRing si v) (UR : unitary_rows RRing si v) (UC : unitary_columns RRing si v)
  (RT : forall l, l < nl -> rotate_Tba RRing si nl ixp v (fun l i j => Tba (l, i, j)) l = Some (T l)).
Hypothesis HT : KernelGen.hermitian RRing T.
Variables (E mu tl : nat -> R) (quad : R -> R -> R -> R) (digamma_re : R -> R).
Local Notation fct d := (vn1_fct L nl E mu tl (fun l => fst (d l)) (fun l => snd (d l)) 1 quad digamma_re).
Local Notation fct_energy d := (vn1_fct_energy L nl E mu tl (fun l => fst (d l)) (fun l => snd (d l)) 1 quad digamma_re).

Theorem C68_band_widths : forall d d', edges nl tl d -> edges nl tl d' -> same_ratio nl d d' ->
  (forall i j, inr (ly_ndm0r L) i -> inr (ly_ndm0r L) j ->
     kern_of RRing L (vn1_calls RRing L nl T (fct d') E) (i, j) = kern_of RRing L (vn1_calls RRing L nl T (fct d) E) (i, j) /\
     kern_of RRing L (red_calls RRing L nl T (fct d') E) (i, j) = kern_of RRing L (red_calls RRing L nl T (fct d) E) (i, j)) /\
  (forall phi l, l < nl ->
     vn1_current RRing L phi T (fct d') l = vn1_current RRing L phi T (fct d) l /\
     red_current RRing L phi T (fct d') l = red_current RRing L phi T (fct d) l /\
     vn1_current RRing L phi T (fct_energy d') l = vn1_current RRing L phi T (fct_energy d) l /\
     red_current RRing L phi T (fct_energy d') l = red_current RRing L phi T (fct_energy d) l).
Proof.
  intros d d' ED ED' SR. assert (Hn : 1 <= n) by apply RS.
  pose proof (system_layout n name si L Hn NS SY) as LO.
  assert (LT : forall s, In s (cons_states L) -> s < si_nmany si).
  { intros s Hs. apply (Permutation_in _ ALL) in Hs. apply in_seq in Hs. lia. }
  apply (C68_tables L LO nl E mu tl quad digamma_re d d' ED ED' SR (PropKernel.charge_of si) T (gam RRing n tleads)); auto.
  - apply (system_charge n name si L Hn NS SY).
  - intros l s t Hl Hs Ht. now apply (rot_selection n name si nl RS tleads Tba v ixp T HTl EC HX SH RT); auto.
  - intros l s t Hl Hs Ht.
    rewrite (rsum_perm Cr _ _ _ _ ALL).
    now apply (rot_square n name si nl RS tleads Tba v ixp T HTl HS EC HX SH UR UC RT); auto.
Qed.
End Built.
Print Assumptions C68_band_widths.

(** ** With a removed state, or with another ratio *)
(** two levels coupled with the same amplitude to one lead *)
Definition s_tl : list ((nat * nat) * Cx ZRing) := [((0, 0), ZC 1 0); ((0, 1), ZC 1 0)].
Definition s_T (si : SI) (l a b : nat) : Cx ZRing := match construct_Tba ZRing si 1 s_tl zeros with Some t => t (l, a, b) | None => ZC 0 0 end.
Definition s_F (x y : Z) (l k : nat) (s : bool) : Cx ZRing := ZC (if s then y else x) 0.
Definition s_vn1 (L : Lay) (T : nat -> nat -> nat -> Cx ZRing) (F : nat -> nat -> bool -> Cx ZRing) (ij : Z * Z) : Z :=
  kern_of ZRing L (vn1_calls ZRing L 1 T F (fun _ => 0%Z)) ij.
Definition s_red (L : Lay) (T : nat -> nat -> nat -> Cx ZRing) (F : nat -> nat -> bool -> Cx ZRing) (ij : Z * Z) : Z :=
  kern_of ZRing L (red_calls ZRing L 1 T F (fun _ => 0%Z)) ij.

(** the doubly occupied state removed: equal shifts of all tables change the kernels *)
Theorem C68_removed_refuted : exists si L T F F', system 2 "charge" si L /\ cons_states L = [0; 1; 2] /\
  construct_Tba ZRing si 1 s_tl zeros <> None /\ (forall t, construct_Tba ZRing si 1 s_tl zeros = Some t -> forall l a b, T l a b = t (l, a, b)) /\
  tables_shifted ZRing L 1 (fun _ => 1%Z) F F' /\
  map (fun i => map (fun j => s_vn1 L T F (i, j)) [0; 1; 2; 3; 4]%Z) [1; 4]%Z = [[0; 0; 0; 0; 0]; [0; 0; 0; 0; 0]]%Z /\
  map (fun i => map (fun j => s_vn1 L T F' (i, j)) [0; 1; 2; 3; 4]%Z) [1; 4]%Z = [[0; 0; 0; 0; -2]; [0; 1; -1; 0; 0]]%Z /\
  map (fun i => map (fun j => s_red L T F (i, j)) [0; 1; 2; 3; 4]%Z) [1; 4]%Z = [[0; 0; 0; 0; 0]; [0; 0; 0; 0; 0]]%Z /\
  map (fun i => map (fun j => s_red L T F' (i, j)) [0; 1; 2; 3; 4]%Z) [1; 4]%Z = [[0; 0; 0; 0; -2]; [0; 1; -1; 0; 0]]%Z.
Proof.
  exists w_si, w_L, (s_T w_si), (s_F 0 0), (s_F 1 1). split; [|split; [|split; [|split; [|split]]]].
  - destruct w_sys as [[s d]|] eqn:EW; [|vm_compute in EW; discriminate].
    replace w_si with s by (unfold w_si; now rewrite EW). replace w_L with (lay_of d) by (unfold w_L; now rewrite EW).
    constructor. eapply reach_remove; [apply reach_init; apply surjective_pairing|left; reflexivity| |exact EW].
    intros k [<-|[]]. simpl. lia.
  - vm_compute. reflexivity.
  - vm_compute. discriminate.
  - intros t Ht l a b. unfold s_T. now rewrite Ht.
  - intros l c b q [|] _ _ _ _; reflexivity.
  - split; [|split; [|split]]; vm_compute; reflexivity.
Qed.
Print Assumptions C68_removed_refuted.

(** every state kept, only the lower edge moved: the first tables change, the second do not, and the kernels change *)
Theorem C68_ratio_refuted : exists si L T F F', system 2 "charge" si L /\ cons_states L = [0; 1; 2; 3] /\
  (forall t, construct_Tba ZRing si 1 s_tl zeros = Some t -> forall l a b, T l a b = t (l, a, b)) /\
  one_electron ZRing L (PropKernel.charge_of si) 1 T /\ squares ZRing L 1 T (fun _ => ZC 2 0) /\
  (forall l k, F' l k false = radd (F l k false) (ZC 1 0) /\ F' l k true = F l k true) /\
  map (fun i => map (fun j => s_vn1 L T F (i, j)) [0; 1; 2; 3; 4; 5]%Z) [1; 5]%Z = [[0; 0; 0; 0; 0; 0]; [0; 0; 0; 0; 0; 0]]%Z /\
  map (fun i => map (fun j => s_vn1 L T F' (i, j)) [0; 1; 2; 3; 4; 5]%Z) [1; 5]%Z = [[0; 0; 0; 0; 0; 2]; [0; -1; 1; 0; 0; 0]]%Z /\
  map (fun i => map (fun j => s_red L T F' (i, j)) [0; 1; 2; 3; 4; 5]%Z) [1; 5]%Z = [[0; 0; 0; 0; 0; 2]; [0; -1; 1; 0; 0; 0]]%Z.
Proof.
  exists ex_si, ex_L, (s_T ex_si), (s_F 0 0), (s_F 1 0). split; [|split; [|split; [|split; [|split; [|split]]]]].
  - constructor. apply reach_init. reflexivity.
  - vm_compute. reflexivity.
  - intros t Ht l a b. unfold s_T. now rewrite Ht.
  - intros l s t Hl Hs Ht. assert (l = 0) by lia. subst l.
    assert (CS : cons_states ex_L = [0; 1; 2; 3]) by (vm_compute; reflexivity). rewrite CS in Hs, Ht.
    destruct Hs as [<-|[<-|[<-|[<-|[]]]]], Ht as [<-|[<-|[<-|[<-|[]]]]]; intros A B; try reflexivity; exfalso; first [apply A; reflexivity|apply B; reflexivity].
  - intros l s t Hl Hs Ht. assert (l = 0) by lia. subst l.
    assert (CS : cons_states ex_L = [0; 1; 2; 3]) by (vm_compute; reflexivity). rewrite CS in Hs, Ht.
    destruct Hs as [<-|[<-|[<-|[<-|[]]]]], Ht as [<-|[<-|[<-|[<-|[]]]]]; vm_compute; reflexivity.
  - intros l k. split; reflexivity.
  - split; [|split]; vm_compute; reflexivity.
Qed.
Print Assumptions C68_ratio_refuted.

(** ** Examples *)
(** two levels, two leads, complex amplitudes: kernels and energy currents with two sets of tables agree, the entries are not zero *)
Definition q_F (s : Z) (l k : nat) (b : bool) : Cx ZRing := ZC (Z.of_nat (3 * l + k * k) + s * (2 + Z.of_nat l)) (if b then 5 - Z.of_nat k else Z.of_nat l).
Definition q_E (a : nat) : Z := nth a [0; 3; 4; 9]%Z 0%Z.
Definition q_kern (s : Z) (vn : bool) (ij : Z * Z) : Z :=
  kern_of ZRing ex_L ((if vn then vn1_calls else red_calls) ZRing ex_L 2 b_T (q_F s) q_E) ij.
Definition q_idx := list_prod [0; 1; 2; 3; 4; 5]%Z [0; 1; 2; 3; 4; 5]%Z.
Example C68_case : map (q_kern 0 true) q_idx = map (q_kern 11 true) q_idx /\ map (q_kern 0 false) q_idx = map (q_kern 11 false) q_idx /\
  map (q_kern 0 true) (list_prod [1; 5]%Z [0; 1; 2; 3; 4; 5]%Z) <> map (fun _ => 0%Z) (list_prod [1; 5]%Z [0; 1; 2; 3; 4; 5]%Z) /\
  ly_ndm0r ex_L = 6.
Proof.
  split; [vm_compute; reflexivity|]. split; [vm_compute; reflexivity|]. split; [vm_compute; discriminate|]. vm_compute. reflexivity.
Qed.
(** symmetric bands of any widths keep the ratio *)
Example C68_symmetric : forall nl (tl w w' : nat -> R), (forall l, (l < nl)%nat -> (0 < tl l /\ 0 < w l /\ 0 < w' l)%R) ->
  edges nl tl (fun l => (- w l, w l)%R) /\ edges nl tl (fun l => (- w' l, w' l)%R) /\
  same_ratio nl (fun l => (- w l, w l)%R) (fun l => (- w' l, w' l)%R).
Proof.
  intros nl tl w w' H. split; [|split]; intros l Hl; destruct (H l Hl) as (A & B & D); cbn [fst snd]; [lra|lra|].
  rewrite !Rabs_Ropp. ring.
Qed.
