(** Electron-phonon terms: qmeq/approach/elph/ (pauli.py, lindblad.py, neumann1.py, redfield.py),
    generate_coupling_terms.  The electronic indexing is [L]; [L2] is si_elph (StateIndexingDMc).
    The arrays filled by generate_fct are parameters. *)
From Coq Require Import String List Arith Lia ZArith Bool Permutation Ring.
From Verif Require Import Base SsqProofs Qn DMIndex DMIndexProofs CRing Layout Kernel KernelProofs PauliProofs CohProofs CohKernels CohCurrents MasterEq.
Import ListNotations.
Open Scope nat_scope.
Local Notation length := List.length.

(** ** Model *)
Section Model.
Variable K : CRing.
Local Notation C := (Cx K).
Local Open Scope rng_scope.
Variables (L L2 : Lay) (nbaths : nat).
Local Notation baths := (leads nbaths).
(** [x == -1] *)
Definition out (x : Z) : bool := (x =? -1)%Z.

(** elph/pauli.py 60-82; [wp l ab] is paulifct_elph[l, ab].  base generate_coupling_terms comes first. *)
Definition ph_pauli (wp : nat -> Z -> K) (b bp : nat) (bc : Z) : list (call K) :=
  let bb := ind0 L b b bc in
  flat_map (fun a => let aa := ind0 L a a bc in let ab := ind0 L2 a b bc in let ba := ind0 L2 b a bc in
     if (out aa || out ba)%bool then [] else
     [CPauli K (rsum (fun l => - wp l ab) baths) (rsum (fun l => wp l ba) baths) bb aa])
    (states L bc).

(** elph/lindblad.py 61-92; [tV l b bp q] is tLbbp[l, b, bp, q], 0.5 is [h] *)
Definition lq : list (nat * bool) := list_prod baths [false; true].
Definition ph_lindblad (h : K) (tV : nat -> nat -> nat -> bool -> C) (b bp : nat) (bc : Z) : list (call K) :=
  flat_map (fun p => let '(a, ap) := p in
     if is_included L a ap bc then
       [CElem K (Ci K * rsum (fun x => let '(l, q) := x in tV l b a q * conj (tV l bp ap q)) lq) b bp bc a ap bc] else [])
    (list_prod (states L bc) (states L bc)) ++
  flat_map (fun bpp =>
     (if is_included L bpp bp bc then
        [CElem K (Ci K * rsum (fun a => rsum (fun x => let '(l, q) := x in
                     - ofR h * conj (tV l a b q) * tV l a bpp q) lq) (states L bc)) b bp bc bpp bp bc] else []) ++
     (if is_included L b bpp bc then
        [CElem K (Ci K * rsum (fun a => rsum (fun x => let '(l, q) := x in
                     - ofR h * conj (tV l a bpp q) * tV l a bp q) lq) (states L bc)) b bp bc b bpp bc] else []))
    (states L bc).

Variables (h : K) (V : nat -> nat -> nat -> C) (w : nat -> Z -> bool -> C).
(** gamma_ba_bpap = 0.5*(Vbbp[l,b,a]*Vbbp[l,bp,ap].conj + Vbbp[l,a,b].conj*Vbbp[l,ap,bp]) *)
Definition gam (l b a bp ap : nat) : C := ofR h * (V l b a * conj (V l bp ap) + conj (V l a b) * V l ap bp).
(** gamma_abpp_abp = 0.5*(Vbbp[l,a,bpp].conj*Vbbp[l,a,bp] + Vbbp[l,bpp,a]*Vbbp[l,bp,a].conj) *)
Definition gam2 (l a bpp bp : nat) : C := ofR h * (conj (V l a bpp) * V l a bp + V l bpp a * conj (V l bp a)).

(** elph/neumann1.py 65-142; [w l k q] is w1fct[l, k, q] *)
Definition ph_vn1 (b bp : nat) (bc : Z) : list (call K) :=
  flat_map (fun p => let '(a, ap) := p in
     if is_included L a ap bc then
       let bpa := ind0 L2 bp a bc in let bap := ind0 L2 b ap bc in
       if (out bpa || out bap)%bool then [] else
       [CElem K (rsum (fun l => gam l b a bp ap * (conj (w l bpa false) - w l bap false)) baths) b bp bc a ap bc] else [])
    (list_prod (states L bc) (states L bc)) ++
  flat_map (fun bpp =>
     (if is_included L bpp bp bc then
        [CElem K (rsum (fun a => let bpa := ind0 L2 bp a bc in if out bpa then 0 else
                    rsum (fun l => gam l b a bpp a * conj (w l bpa true)) baths) (states L bc) +
                  rsum (fun c => let cbp := ind0 L2 c bp bc in if out cbp then 0 else
                    rsum (fun l => gam l b c bpp c * w l cbp false) baths) (states L bc))
               b bp bc bpp bp bc] else []) ++
     (if is_included L b bpp bc then
        [CElem K (rsum (fun a => let ba := ind0 L2 b a bc in if out ba then 0 else
                    rsum (fun l => - gam2 l a bpp bp * w l ba true) baths) (states L bc) +
                  rsum (fun c => let cb := ind0 L2 c b bc in if out cb then 0 else
                    rsum (fun l => - gam2 l c bpp bp * conj (w l cb false)) baths) (states L bc))
               b bp bc b bpp bc] else []))
    (states L bc) ++
  flat_map (fun p => let '(c, cp) := p in
     if is_included L c cp bc then
       let cbp := ind0 L2 c bp bc in let cpb := ind0 L2 cp b bc in
       if (out cbp || out cpb)%bool then [] else
       [CElem K (rsum (fun l => gam l b c bp cp * (w l cbp true - conj (w l cpb true))) baths) b bp bc c cp bc] else [])
    (list_prod (states L bc) (states L bc)).

(** elph/redfield.py 32-103 *)
Definition ph_red (b bp : nat) (bc : Z) : list (call K) :=
  flat_map (fun p => let '(a, ap) := p in
     if is_included L a ap bc then
       let bpap := ind0 L2 bp ap bc in let ba := ind0 L2 b a bc in
       if (out bpap || out ba)%bool then [] else
       [CElem K (rsum (fun l => gam l b a bp ap * (conj (w l bpap false) - w l ba false)) baths) b bp bc a ap bc] else [])
    (list_prod (states L bc) (states L bc)) ++
  flat_map (fun bpp =>
     (if is_included L bpp bp bc then
        [CElem K (rsum (fun a => let bppa := ind0 L2 bpp a bc in if out bppa then 0 else
                    rsum (fun l => gam l b a bpp a * conj (w l bppa true)) baths) (states L bc) +
                  rsum (fun c => let cbpp := ind0 L2 c bpp bc in if out cbpp then 0 else
                    rsum (fun l => gam l b c bpp c * w l cbpp false) baths) (states L bc))
               b bp bc bpp bp bc] else []) ++
     (if is_included L b bpp bc then
        [CElem K (rsum (fun a => let bppa := ind0 L2 bpp a bc in if out bppa then 0 else
                    rsum (fun l => - gam2 l a bpp bp * w l bppa true) baths) (states L bc) +
                  rsum (fun c => let cbpp := ind0 L2 c bpp bc in if out cbpp then 0 else
                    rsum (fun l => - gam2 l c bpp bp * conj (w l cbpp false)) baths) (states L bc))
               b bp bc b bpp bc] else []))
    (states L bc) ++
  flat_map (fun p => let '(c, cp) := p in
     if is_included L c cp bc then
       let cpbp := ind0 L2 cp bp bc in let cb := ind0 L2 c b bc in
       if (out cpbp || out cb)%bool then [] else
       [CElem K (rsum (fun l => gam l b c bp cp * (w l cpbp true - conj (w l cb true))) baths) b bp bc c cp bc] else [])
    (list_prod (states L bc) (states L bc)).
End Model.

(** ** Specification: the phonon terms as operators *)
Section Spec.
Variable K : CRing.
Local Notation C := (Cx K).
Local Open Scope rng_scope.
Variables (S_ : list nat) (N : nat -> nat).
(** the part of an operator that keeps the electron number *)
Definition op_same (X : Op K) : Op K := fun s t => if (N s =? N t)%nat then X s t else 0.
(** Lindblad: two jump operators for each bath *)
Definition ph_lindblad_bath (h : K) (tV : nat -> nat -> nat -> bool -> C) (r : Op K) (l : nat) : Op K := fun s t =>
  rsum (fun q => dissipator K S_ h (op_same (fun a b => tV l a b q)) r s t) [false; true].
(** Q(A)(s,t) = conj(H(s,t)) A(s,t) *)
Definition ph_q (H A : Op K) : Op K := fun s t => conj (H s t) * A s t.
(** 1vN: Psi(s,t) = H(t,s) (r A^+)(s,t) + conj(H(s,t)) (A^+ r)(s,t) *)
Definition vn_psi (A H r : Op K) : Op K :=
  op_add K (fun s t => H t s * op_mul K S_ r (op_adj K A) s t) (ph_q H (op_mul K S_ (op_adj K A) r)).
(** Redfield: Psi = r Q(A)^+ + Q(A^+) r *)
Definition red_psi (A H r : Op K) : Op K :=
  op_add K (op_mul K S_ r (op_adj K (ph_q H A))) (op_mul K S_ (ph_q H (op_adj K A)) r).
(** one bath: V and V^+ couple to it with weight h each, and d rho/dt = -i h sum_A (A Psi_A - (A Psi_A)^+) *)
Definition ph_bath (psi : Op K -> Op K -> Op K -> Op K) (h : K) (V H r : Op K) : Op K := fun s t =>
  - Ci K * rsum (fun X => ofR h * (op_mul K S_ (op_same X) (psi (op_same X) H r) s t -
                                   conj (op_mul K S_ (op_same X) (psi (op_same X) H r) t s))) [V; op_adj K V].
(** rate equation with rate R s t for t -> s *)
Definition rate_eq (R : nat -> nat -> K) (p : nat -> K) (s : nat) : K := rsum (fun t => R s t * p t - R t s * p s) S_.
End Spec.

(** ** Proofs *)
Section Proofs.
Variable K : CRing.
Local Notation C := (Cx K).
Local Open Scope rng_scope.
Add Ring KrEP : (rth K).
Add Ring CrEP : (rth (Cx K)).
Variables (L L2 : Lay).
Hypothesis LO : layout L.
Variable N : nat -> nat.
Hypothesis HN : forall c b, (0 <= c)%Z -> In b (states L c) -> N b = Z.to_nat c.
(** which pairs si_elph keeps *)
Hypothesis GS : forall s t c, (0 <= c)%Z -> In s (states L c) -> In t (states L c) ->
  out (ind0 L2 s t c) = out (ind0 L2 t s c).
Hypothesis GT : forall s a ap c, el L a ap c -> In s (states L c) -> out (ind0 L2 s a c) = out (ind0 L2 s ap c).
Variable phi : Z -> K.
Local Notation rho := (rho K L phi).
Local Notation gval := (gval K L phi).
Local Notation SS := (cons_states L).
Local Notation dens := (dens K L N phi).
Variables (nb : nat).
Local Notation LS := (leads nb).

Lemma mul_same : forall (X Y : Op K) s t c, (0 <= c)%Z -> In s (states L c) ->
  op_mul K SS (op_same K N X) Y s t = rsum (fun u => X s u * Y u t) (states L c).
Proof.
  intros X Y s t c Hc Hs. pose proof (lo_range L LO c s Hc Hs) as R. rewrite <- (blk K L LO N HN c) by lia.
  unfold op_mul. apply rsum_ext. intros u _. unfold op_same. rewrite (HN c s) by auto.
  destruct (Nat.eqb_spec (Z.to_nat c) (N u)), (Z.eqb_spec (Z.of_nat (N u)) c); try lia; ring.
Qed.
Lemma same_in : forall (X : Op K) s t c, (0 <= c)%Z -> In s (states L c) -> In t (states L c) -> op_same K N X s t = X s t.
Proof. intros X s t c Hc Hs Ht. unfold op_same. now rewrite (HN c s), (HN c t), Nat.eqb_refl by auto. Qed.

(** *** The common form of the 1vN and Redfield terms *)
Section Block.
Variable c : Z.
Hypothesis Hc : (0 <= c)%Z.
Local Notation SC := (states L c).
Variable P : nat -> nat -> nat -> C.
Definition MM (X : Op K) (s t : nat) : C :=
  rsum (fun a => rsum (fun ap => X s a * conj (X t ap) * P t a ap * rho a ap c) SC) SC +
  rsum (fun a => rsum (fun v => X s a * conj (X v a) * conj (P a t v) * rho v t c) SC) SC.
Definition code (g g2 : nat -> nat -> nat -> nat -> C) (b bp : nat) : C :=
  rsum (fun a => rsum (fun ap => g b a bp ap * (P bp a ap - conj (P b ap a)) * rho a ap c) SC) SC +
  rsum (fun a => rsum (fun v => g b a v a * conj (P a bp v) * rho v bp c) SC) SC -
  rsum (fun a => rsum (fun v => g2 a v bp 0%nat * P a b v * rho b v c) SC) SC.

Lemma MM_conj : forall X b bp, In b SC -> conj (MM X bp b) =
  rsum (fun a => rsum (fun ap => X b a * conj (X bp ap) * conj (P b ap a) * rho a ap c) SC) SC +
  rsum (fun a => rsum (fun v => X v a * conj (X bp a) * P a b v * rho b v c) SC) SC.
Proof.
  intros X b bp Hb. unfold MM. rewrite conj_add, !rsum_conj. f_equal.
  - etransitivity; [|apply rsum_swap]. apply rsum_ext. intros a Ha. rewrite rsum_conj. apply rsum_ext. intros ap Hap.
    rewrite !conj_mul, conj_conj, (rho_herm K L LO) by auto. ring.
  - apply rsum_ext. intros a Ha. rewrite rsum_conj. apply rsum_ext. intros v Hv.
    rewrite !conj_mul, !conj_conj, (rho_herm K L LO) by auto. ring.
Qed.

Lemma code_MM : forall (h : K) (V : Op K) g g2 b bp, In b SC ->
  (forall b a bp ap, g b a bp ap = ofR h * (V b a * conj (V bp ap) + conj (V a b) * V ap bp)) ->
  (forall a v bp x, g2 a v bp x = ofR h * (conj (V a v) * V a bp + V v a * conj (V bp a))) ->
  code g g2 b bp = rsum (fun X => ofR h * (MM X b bp - conj (MM X bp b))) [V; op_adj K V].
Proof.
  intros h V g g2 b bp Hb Hg Hg2. cbn [rsum]. rewrite !MM_conj by auto. unfold MM, code.
  assert (E : forall F F1 F2 : nat -> nat -> C, (forall a v, F a v = ofR h * F1 a v + ofR h * F2 a v) ->
     rsum (fun a => rsum (fun v => F a v) SC) SC =
     ofR h * rsum (fun a => rsum (fun v => F1 a v) SC) SC + ofR h * rsum (fun a => rsum (fun v => F2 a v) SC) SC).
  { intros F F1 F2 H. rewrite <- !rsum_mul_l, <- rsum_plus. apply rsum_ext. intros a _.
    rewrite <- !rsum_mul_l, <- rsum_plus. apply rsum_ext. intros v _. apply H. }
  rewrite (E (fun a ap => g b a bp ap * (P bp a ap - conj (P b ap a)) * rho a ap c)
     (fun a ap => V b a * conj (V bp ap) * (P bp a ap - conj (P b ap a)) * rho a ap c)
     (fun a ap => op_adj K V b a * conj (op_adj K V bp ap) * (P bp a ap - conj (P b ap a)) * rho a ap c)).
  2:{ intros. rewrite Hg. unfold op_adj. rewrite conj_conj. ring. }
  rewrite (E (fun a v => g b a v a * conj (P a bp v) * rho v bp c)
     (fun a v => V b a * conj (V v a) * conj (P a bp v) * rho v bp c)
     (fun a v => op_adj K V b a * conj (op_adj K V v a) * conj (P a bp v) * rho v bp c)).
  2:{ intros. rewrite Hg. unfold op_adj. rewrite conj_conj. ring. }
  rewrite (E (fun a v => g2 a v bp 0%nat * P a b v * rho b v c)
     (fun a v => V v a * conj (V bp a) * P a b v * rho b v c)
     (fun a v => op_adj K V v a * conj (op_adj K V bp a) * P a b v * rho b v c)).
  2:{ intros. rewrite Hg2. unfold op_adj. rewrite conj_conj. ring. }
  assert (D : forall X : Op K, rsum (fun a => rsum (fun ap => X b a * conj (X bp ap) * (P bp a ap - conj (P b ap a)) * rho a ap c) SC) SC =
    rsum (fun a => rsum (fun ap => X b a * conj (X bp ap) * P bp a ap * rho a ap c) SC) SC -
    rsum (fun a => rsum (fun ap => X b a * conj (X bp ap) * conj (P b ap a) * rho a ap c) SC) SC).
  { intros X. rewrite <- rsum_minus. apply rsum_ext. intros a _. rewrite <- rsum_minus. apply rsum_ext. intros ap _. ring. }
  rewrite !D. ring.
Qed.

(** the trace over the block has no imaginary part *)
Lemma MM_trace : forall V : Op K, im (rsum (fun b => rsum (fun X => MM X b b) [V; op_adj K V]) SC) = 0.
Proof.
  intros V.
  assert (T : forall X : Op K, rsum (fun b => MM X b b) SC =
    rsum (fun b => rsum (fun a => rsum (fun ap => X b a * conj (X b ap) * P b a ap * rho a ap c) SC) SC) SC +
    rsum (fun b => rsum (fun a => rsum (fun v => X b a * conj (X v a) * conj (P a b v) * rho v b c) SC) SC) SC).
  { intros X. unfold MM. apply rsum_plus. }
  assert (S2 : forall X : Op K,
    conj (rsum (fun b => rsum (fun a => rsum (fun v => op_adj K X b a * conj (op_adj K X v a) * conj (P a b v) * rho v b c) SC) SC) SC) =
    rsum (fun b => rsum (fun a => rsum (fun ap => X b a * conj (X b ap) * P b a ap * rho a ap c) SC) SC) SC).
  { intros X. rewrite rsum_conj. etransitivity; [|apply rsum_swap]. apply rsum_ext. intros a Ha. rewrite rsum_conj.
    apply rsum_ext. intros b Hb. rewrite rsum_conj. apply rsum_ext. intros v Hv.
    unfold op_adj. rewrite !conj_mul, !conj_conj, (rho_herm K L LO) by auto. ring. }
  cbn [rsum]. rewrite !rsum_plus.
  pose proof (S2 V) as A. pose proof (S2 (op_adj K V)) as B.
  rewrite (T V), (T (op_adj K V)).
  match type of A with conj ?p = ?q => set (p1 := p) in *; set (q1 := q) in * end.
  match type of B with conj ?p = ?q => set (p2 := p) in *; set (q2 := q) in * end.
  assert (B' : rsum (fun b => rsum (fun a => rsum (fun v => V b a * conj (V v a) * conj (P a b v) * rho v b c) SC) SC) SC = p2).
  { unfold p2. apply rsum_ext. intros b _. apply rsum_ext. intros a _. apply rsum_ext. intros v _. unfold op_adj. now rewrite !conj_conj. }
  rewrite B', <- A, <- B, (rsum_0 C _ (fun _ => 0)) by auto.
  rewrite !im_add. cbn [im conj]. change (im (0 : C)) with (0 : K). ring.
Qed.
Lemma code_trace : forall (h : K) (V : Op K) g g2,
  (forall b a bp ap, g b a bp ap = ofR h * (V b a * conj (V bp ap) + conj (V a b) * V ap bp)) ->
  (forall a v bp x, g2 a v bp x = ofR h * (conj (V a v) * V a bp + V v a * conj (V bp a))) ->
  im (rsum (fun b => code g g2 b b) SC) = 0.
Proof.
  intros h V g g2 Hg Hg2.
  rewrite (rsum_ext C _ _ (fun b => ofR h * (rsum (fun X => MM X b b) [V; op_adj K V] - conj (rsum (fun X => MM X b b) [V; op_adj K V])))).
  2:{ intros b Hb. rewrite (code_MM h V g g2 b b Hb Hg Hg2). rewrite rsum_conj, <- rsum_minus, <- rsum_mul_l. reflexivity. }
  pose proof (MM_trace V) as T.
  rewrite rsum_mul_l, rsum_minus, <- rsum_conj.
  set (z := rsum (fun b => rsum (fun X => MM X b b) [V; op_adj K V]) SC) in *.
  rewrite im_mul. cbn [re im ofR]. change (re (z - conj z)) with (re z - re z). change (im (z - conj z)) with (im z - - im z).
  rewrite T. ring.
Qed.
End Block.

(** *** The calls in the common form *)
Section TW.
Variables (h : K) (V : nat -> Op K) (w : nat -> Z -> bool -> C).
(** table entry, zero for a pair that si_elph does not keep *)
Definition wtab (q : bool) (l s t : nat) : C :=
  let k := ind0 L2 s t (Z.of_nat (N s)) in if out k then 0 else w l k q.
(** H(s,t) = conj w0(s,t) + w1(t,s) *)
Definition htab (l : nat) : Op K := fun s t => conj (wtab false l s t) + wtab true l t s.

Section El.
Variables (b bp : nat) (c : Z).
Hypothesis EL : el L b bp c.
Local Notation SC := (states L c).
Let Hc : (0 <= c)%Z := proj1 EL.
Let Hb : In b SC := proj1 (proj2 EL).
Let Hbp : In bp SC := proj1 (proj2 (proj2 EL)).

Lemma wtab_at : forall q l s t, In s SC -> wtab q l s t = if out (ind0 L2 s t c) then 0 else w l (ind0 L2 s t c) q.
Proof. intros q l s t Hs. unfold wtab. rewrite (HN c s) by auto. now rewrite Z2Nat.id by auto. Qed.

(** two gates in front of a call *)
Lemma gate_out : forall a ap x y (f g : C), In a SC -> In ap SC ->
  (el L a ap c -> x = y /\ (x = true -> g = 0) /\ (x = false -> f = g)) ->
  rsum gval (if is_included L a ap c then (if (x || y)%bool then [] else [CElem K f b bp c a ap c]) else []) = g * rho a ap c.
Proof.
  intros a ap x y f g Ha Hap H. destruct (is_included L a ap c) eqn:I.
  - assert (E : el L a ap c).
    { repeat split; auto. unfold is_included in I. apply negb_true_iff, Z.eqb_neq in I. auto. }
    destruct (H E) as (<- & H1 & H2). destruct x; cbn [orb rsum].
    + rewrite H1 by auto. ring.
    + rewrite H2 by auto. unfold KernelProofs.gval. ring.
  - rewrite not_included by auto. cbn [rsum]. ring.
Qed.
Lemma el_sym : forall a ap, el L a ap c -> el L ap a c.
Proof.
  intros a ap (A & B & D & F). repeat split; auto. destruct (Nat.eq_dec a ap) as [->|Hne]; auto.
  destruct (lo_off L LO a ap c A B D Hne) as (-> & _). auto.
Qed.
(** the two gates of a gain term agree *)
Lemma gates : forall a ap, el L a ap c ->
  out (ind0 L2 bp a c) = out (ind0 L2 b ap c) /\ out (ind0 L2 bp ap c) = out (ind0 L2 b a c) /\
  out (ind0 L2 a bp c) = out (ind0 L2 ap b c) /\ out (ind0 L2 ap bp c) = out (ind0 L2 a b c).
Proof.
  intros a ap E. pose proof E as (_ & Ha & Hap & _).
  assert (X : forall u, In u SC -> out (ind0 L2 bp u c) = out (ind0 L2 b u c)).
  { intros u Hu. rewrite (GS bp u c), (GS b u c) by auto. symmetry. apply GT; auto. }
  assert (Y : forall u, In u SC -> out (ind0 L2 u a c) = out (ind0 L2 u ap c)) by (intros; apply GT; auto).
  assert (W1 : out (ind0 L2 bp a c) = out (ind0 L2 b ap c)) by (rewrite X, Y; auto).
  assert (W2 : out (ind0 L2 bp ap c) = out (ind0 L2 b a c)) by (rewrite X, Y; auto).
  repeat split; auto.
  - rewrite (GS a bp c), (GS ap b c) by auto. auto.
  - rewrite (GS ap bp c), (GS a b c) by auto. auto.
Qed.

(** the loss calls: T1, T2 are the table factors of the two sums *)
Lemma loss_sum : forall (f1 f2 f3 f4 : nat -> nat -> C) (F G_ : nat -> nat -> nat -> C),
  (forall v a, In v SC -> In a SC -> f1 v a + f2 v a = rsum (fun l => F l a v) LS) ->
  (forall v a, In v SC -> In a SC -> f3 v a + f4 v a = rsum (fun l => - G_ l a v) LS) ->
  rsum gval (flat_map (fun bpp =>
     (if is_included L bpp bp c then [CElem K (rsum (f1 bpp) SC + rsum (f2 bpp) SC) b bp c bpp bp c] else []) ++
     (if is_included L b bpp c then [CElem K (rsum (f3 bpp) SC + rsum (f4 bpp) SC) b bp c b bpp c] else [])) SC) =
  rsum (fun l => rsum (fun a => rsum (fun v => F l a v * rho v bp c) SC) SC -
                 rsum (fun a => rsum (fun v => G_ l a v * rho b v c) SC) SC) LS.
Proof.
  intros f1 f2 f3 f4 F G_ H1 H2. rewrite rsum_flat_map.
  etransitivity; [apply rsum_ext; intros v Hv; apply gate2|]. rewrite rsum_plus, rsum_minus.
  rewrite (rsum_ext C _ (fun v => (rsum (f1 v) SC + rsum (f2 v) SC) * rho v bp c) (fun v => rsum (fun a => rsum (fun l => F l a v) LS) SC * rho v bp c)).
  2:{ intros v Hv. f_equal. rewrite <- rsum_plus. apply rsum_ext. intros a Ha. apply H1; auto. }
  rewrite (rsum_ext C _ (fun v => (rsum (f3 v) SC + rsum (f4 v) SC) * rho b v c) (fun v => rsum (fun a => rsum (fun l => - G_ l a v) LS) SC * rho b v c)).
  2:{ intros v Hv. f_equal. rewrite <- rsum_plus. apply rsum_ext. intros a Ha. apply H2; auto. }
  rewrite !canonB.
  match goal with |- ?x + ?y = ?x - ?z => assert (E : y = - z); [|rewrite E; ring] end.
  rewrite <- rsum_opp. apply rsum_ext. intros l _. rewrite <- rsum_opp. apply rsum_ext. intros a _.
  rewrite <- rsum_opp. apply rsum_ext. intros v _. ring.
Qed.

Definition vP (l t a ap : nat) : C := htab l t a.
Definition rP (l t a ap : nat) : C := htab l t ap.

Lemma conj_if : forall (x : bool) (z : C), conj (if x then 0 else z) = if x then 0 else conj z.
Proof. intros [] z; [apply conj_0|reflexivity]. Qed.
Lemma if_sum : forall (x : bool) (f : nat -> C), (if x then 0 else rsum f LS) = rsum (fun l => if x then 0 else f l) LS.
Proof. intros [] f; auto. symmetry. now apply (rsum_0 C). Qed.

Ltac loss_tac := intros v a Hv Ha; rewrite !if_sum, <- rsum_plus; apply rsum_ext; intros l _;
  unfold vP, rP, htab; rewrite ?conj_add, !wtab_at by auto; rewrite ?conj_if, ?conj_conj;
  repeat (destruct (out _); rewrite ?conj_0, ?conj_conj); ring.
Ltac gsum_tac := intros a Ha; apply rsum_ext; intros ap Hap; cbv beta iota zeta; apply gate_out; auto;
  intros E; pose proof (gates _ _ E) as (G1 & G2 & G3 & G4); split; [assumption|]; split; intros O;
  [apply (rsum_0 C); intros l _|apply rsum_ext; intros l _]; rewrite ?wtab_at by assumption;
  rewrite <- ?G1, <- ?G2, <- ?G3, <- ?G4, ?O, ?conj_0; ring.

Lemma vn1_code : rsum gval (ph_vn1 K L L2 nb h V w b bp c) =
  rsum (fun l => code c (vP l) (gam K h V l) (fun a v x _ => gam2 K h V l a v x) b bp) LS.
Proof.
  unfold ph_vn1. rewrite !rsum_app.
  rewrite (loss_sum _ _ _ _ (fun l a v => gam K h V l b a v a * conj (vP l a bp v)) (fun l a v => gam2 K h V l a v bp * vP l a b v)).
  2:{ loss_tac. }
  2:{ loss_tac. }
  rewrite !rsum_flat_map, !rsum_prod.
  match goal with |- ?x + (?y + ?z) = _ => set (GA := x); set (GB := y); set (GC := z) end.
  assert (HA : GA = rsum (fun a => rsum (fun ap => rsum (fun l => gam K h V l b a bp ap * (conj (wtab false l bp a) - wtab false l b ap)) LS * rho a ap c) SC) SC).
  { unfold GA. apply rsum_ext. gsum_tac. }
  assert (HC : GC = rsum (fun a => rsum (fun ap => rsum (fun l => gam K h V l b a bp ap * (wtab true l a bp - conj (wtab true l ap b))) LS * rho a ap c) SC) SC).
  { unfold GC. apply rsum_ext. gsum_tac. }
  rewrite HA, HC. unfold GB. clear GA GB GC HA HC. rewrite !canon2, <- !rsum_plus. apply rsum_ext. intros l _. unfold code.
  rewrite (rsum_ext C _ (fun a => rsum (fun ap => gam K h V l b a bp ap * (vP l bp a ap - conj (vP l b ap a)) * rho a ap c) SC)
    (fun a => rsum (fun ap => gam K h V l b a bp ap * (conj (wtab false l bp a) - wtab false l b ap) * rho a ap c) SC +
              rsum (fun ap => gam K h V l b a bp ap * (wtab true l a bp - conj (wtab true l ap b)) * rho a ap c) SC)).
  2:{ intros a Ha. rewrite <- rsum_plus. apply rsum_ext. intros ap Hap. unfold vP, htab. rewrite conj_add, conj_conj. ring. }
  rewrite rsum_plus. ring.
Qed.

Lemma red_code : rsum gval (ph_red K L L2 nb h V w b bp c) =
  rsum (fun l => code c (rP l) (gam K h V l) (fun a v x _ => gam2 K h V l a v x) b bp) LS.
Proof.
  unfold ph_red. rewrite !rsum_app.
  rewrite (loss_sum _ _ _ _ (fun l a v => gam K h V l b a v a * conj (rP l a bp v)) (fun l a v => gam2 K h V l a v bp * rP l a b v)).
  2:{ loss_tac. }
  2:{ loss_tac. }
  rewrite !rsum_flat_map, !rsum_prod.
  match goal with |- ?x + (?y + ?z) = _ => set (GA := x); set (GB := y); set (GC := z) end.
  assert (HA : GA = rsum (fun a => rsum (fun ap => rsum (fun l => gam K h V l b a bp ap * (conj (wtab false l bp ap) - wtab false l b a)) LS * rho a ap c) SC) SC).
  { unfold GA. apply rsum_ext. gsum_tac. }
  assert (HC : GC = rsum (fun a => rsum (fun ap => rsum (fun l => gam K h V l b a bp ap * (wtab true l ap bp - conj (wtab true l a b))) LS * rho a ap c) SC) SC).
  { unfold GC. apply rsum_ext. gsum_tac. }
  rewrite HA, HC. unfold GB. clear GA GB GC HA HC. rewrite !canon2, <- !rsum_plus. apply rsum_ext. intros l _. unfold code.
  rewrite (rsum_ext C _ (fun a => rsum (fun ap => gam K h V l b a bp ap * (rP l bp a ap - conj (rP l b ap a)) * rho a ap c) SC)
    (fun a => rsum (fun ap => gam K h V l b a bp ap * (conj (wtab false l bp ap) - wtab false l b a) * rho a ap c) SC +
              rsum (fun ap => gam K h V l b a bp ap * (wtab true l ap bp - conj (wtab true l a b)) * rho a ap c) SC)).
  2:{ intros a Ha. rewrite <- rsum_plus. apply rsum_ext. intros ap Hap. unfold rP, htab. rewrite conj_add, conj_conj. ring. }
  rewrite rsum_plus. ring.
Qed.

(** *** The specification in the common form *)
Lemma vn_psi_MM : forall (X H : Op K) s t, In s SC -> In t SC ->
  op_mul K SS (op_same K N X) (vn_psi K SS (op_same K N X) H dens) s t = MM c (fun t a ap => H t a) X s t.
Proof.
  intros X H s t Hs Ht. rewrite (mul_same _ _ s t c) by auto. unfold MM. rewrite <- rsum_plus. apply rsum_ext. intros a Ha.
  unfold vn_psi, op_add, ph_q. rewrite (mul_dens_l K L LO N HN phi _ a t c), (mul_dens_r K L LO N HN phi _ a t c) by auto.
  rewrite <- !rsum_mul_l, <- !rsum_plus, <- !rsum_mul_l. apply rsum_ext. intros u Hu.
  unfold op_adj. rewrite !(same_in X _ _ c) by auto. ring.
Qed.
Lemma red_psi_MM : forall (X H : Op K) s t, In s SC -> In t SC ->
  op_mul K SS (op_same K N X) (red_psi K SS (op_same K N X) H dens) s t = MM c (fun t a ap => H t ap) X s t.
Proof.
  intros X H s t Hs Ht. rewrite (mul_same _ _ s t c) by auto. unfold MM. rewrite <- rsum_plus. apply rsum_ext. intros a Ha.
  unfold red_psi, op_add. rewrite (mul_dens_l K L LO N HN phi _ a t c), (mul_dens_r K L LO N HN phi _ a t c) by auto.
  rewrite <- !rsum_plus, <- !rsum_mul_l. apply rsum_ext. intros u Hu.
  unfold op_adj, ph_q. rewrite conj_mul, conj_conj, !(same_in X _ _ c) by auto. ring.
Qed.

Lemma bath_of_code : forall psi P,
  (forall l X s t, In s SC -> In t SC ->
     op_mul K SS (op_same K N X) (psi (op_same K N X) (htab l) dens) s t = MM c (P l) X s t) ->
  rsum (fun l => code c (P l) (gam K h V l) (fun a v x _ => gam2 K h V l a v x) b bp) LS =
  Ci K * rsum (fun l => ph_bath K SS N psi h (V l) (htab l) dens b bp) LS.
Proof.
  intros psi P HP. rewrite <- rsum_mul_l. apply rsum_ext. intros l _. unfold ph_bath. rewrite (i_mi K).
  rewrite (code_MM c Hc (P l) h (V l)); auto.
  apply rsum_ext. intros X _. now rewrite !HP by auto.
Qed.
Lemma vn1_ph_elem : rsum gval (ph_vn1 K L L2 nb h V w b bp c) =
  Ci K * rsum (fun l => ph_bath K SS N (vn_psi K SS) h (V l) (htab l) dens b bp) LS.
Proof. rewrite vn1_code. apply bath_of_code. intros l X s t Hs Ht. rewrite vn_psi_MM by auto. reflexivity. Qed.
Lemma red_ph_elem : rsum gval (ph_red K L L2 nb h V w b bp c) =
  Ci K * rsum (fun l => ph_bath K SS N (red_psi K SS) h (V l) (htab l) dens b bp) LS.
Proof. rewrite red_code. apply bath_of_code. intros l X s t Hs Ht. rewrite red_psi_MM by auto. reflexivity. Qed.
End El.

Lemma bath_herm : forall psi l s t, conj (ph_bath K SS N psi h (V l) (htab l) dens s t) = ph_bath K SS N psi h (V l) (htab l) dens t s.
Proof.
  intros psi l s t. unfold ph_bath. rewrite conj_mul, rsum_conj.
  replace (conj (- Ci K)) with (Ci K).
  2:{ apply cplx_eq; cbn [re im conj Ci]; change (re (- Ci K)) with (- (0 : K)); change (im (- Ci K)) with (- (1 : K)); ring. }
  assert (X : forall x y : C, conj (ofR h * (x - conj y)) = - (ofR h * (y - conj x))).
  { intros x y. apply cplx_eq.
    - cbn [re conj]. rewrite re_mul. cbn [re im ofR].
      change (h * (re x - re y) - 0 * (im x - - im y) = re (- (ofR h * (y - conj x)))).
      change (re (- (ofR h * (y - conj x)))) with (- (re (ofR h * (y - conj x)))). rewrite re_mul. cbn [re im ofR].
      change (h * (re x - re y) - 0 * (im x - - im y) = - (h * (re y - re x) - 0 * (im y - - im x))). ring.
    - cbn [im conj]. rewrite im_mul. cbn [re im ofR].
      change (im (- (ofR h * (y - conj x)))) with (- (im (ofR h * (y - conj x)))). rewrite im_mul. cbn [re im ofR].
      change (- (h * (im x - - im y) + 0 * (re x - re y)) = - (h * (im y - - im x) + 0 * (re y - re x))). ring. }
  rewrite (rsum_ext C _ _ (fun Y => - (ofR h * (op_mul K SS (op_same K N Y) (psi (op_same K N Y) (htab l) dens) t s -
      conj (op_mul K SS (op_same K N Y) (psi (op_same K N Y) (htab l) dens) s t))))).
  2:{ intros Y _. apply X. }
  rewrite rsum_opp. ring.
Qed.
End TW.

(** *** Lindblad *)
Section Lin.
Variables (h : K) (tV : nat -> nat -> nat -> bool -> C).
Section El.
Variables (b bp : nat) (c : Z).
Hypotheses (Hc : (0 <= c)%Z) (Hb : In b (states L c)) (Hbp : In bp (states L c)).
Local Notation SC := (states L c).
Lemma mul_same_r : forall (X Y : Op K) s t, In t SC ->
  op_mul K SS Y (op_adj K (op_same K N X)) s t = rsum (fun u => Y s u * conj (X t u)) SC.
Proof.
  intros X Y s t Ht. pose proof (lo_range L LO c t Hc Ht) as R. rewrite <- (blk K L LO N HN c) by lia.
  unfold op_mul. apply rsum_ext. intros u _. unfold op_adj, op_same. rewrite (HN c t) by auto.
  destruct (Nat.eqb_spec (Z.to_nat c) (N u)), (Z.eqb_spec (Z.of_nat (N u)) c); try lia; rewrite ?conj_0; ring.
Qed.
Lemma gram_same : forall (X : Op K) s t, In s SC -> In t SC ->
  op_mul K SS (op_adj K (op_same K N X)) (op_same K N X) s t = rsum (fun u => conj (X u s) * X u t) SC.
Proof.
  intros X s t Hs Ht. pose proof (lo_range L LO c t Hc Ht) as R. rewrite <- (blk K L LO N HN c) by lia.
  unfold op_mul. apply rsum_ext. intros u _. unfold op_adj, op_same. rewrite (HN c s), (HN c t) by auto.
  destruct (Nat.eqb_spec (N u) (Z.to_nat c)), (Z.eqb_spec (Z.of_nat (N u)) c); try lia; rewrite ?conj_0; ring.
Qed.
Definition dis (X : Op K) (s t : nat) : C :=
  rsum (fun a => rsum (fun ap => X s a * conj (X t ap) * rho a ap c) SC) SC +
  (rsum (fun a => rsum (fun v => - ofR h * conj (X a s) * X a v * rho v t c) SC) SC +
   rsum (fun a => rsum (fun v => - ofR h * conj (X a v) * X a t * rho s v c) SC) SC).
Lemma diss_block : forall (X : Op K) s t, In s SC -> In t SC ->
  dissipator K SS h (op_same K N X) dens s t = dis X s t.
Proof.
  intros X s t Hs Ht. unfold dissipator, dis.
  rewrite mul_same_r, (mul_dens_l K L LO N HN phi _ s t c), (mul_dens_r K L LO N HN phi _ s t c) by auto.
  match goal with |- ?x - ?k * (?y + ?z) = ?x' + (?y' + ?z') =>
    assert (E1 : x = x'); [|assert (E2 : y' = - k * y); [|assert (E3 : z' = - k * z); [|rewrite E1, E2, E3; ring]]] end.
  - etransitivity; [|apply rsum_swap]. apply rsum_ext. intros u Hu. rewrite (mul_same _ _ s u c) by auto.
    rewrite <- rsum_mul_r. apply rsum_ext. intros a Ha. rewrite (dens_at K L N HN phi a u c) by auto. ring.
  - rewrite <- rsum_mul_l. etransitivity; [apply rsum_swap|]. apply rsum_ext. intros v Hv.
    rewrite gram_same by auto. rewrite <- rsum_mul_r, <- rsum_mul_l. apply rsum_ext. intros u _. ring.
  - rewrite <- rsum_mul_l. etransitivity; [apply rsum_swap|]. apply rsum_ext. intros v Hv.
    rewrite gram_same by auto. rewrite <- !rsum_mul_l. apply rsum_ext. intros u _. ring.
Qed.
Lemma lin_ph_elem : rsum gval (ph_lindblad K L nb h tV b bp c) =
  Ci K * rsum (fun l => ph_lindblad_bath K SS N h tV dens l b bp) LS.
Proof.
  rewrite (rsum_ext C _ (fun l => ph_lindblad_bath K SS N h tV dens l b bp)
     (fun l => rsum (fun q => dis (fun x y => tV l x y q) b bp) [false; true]) LS).
  2:{ intros l _. apply rsum_ext. intros q _. apply diss_block; auto. }
  assert (LQ : forall f : nat * bool -> C, rsum f (lq nb) = rsum (fun l => rsum (fun q => f (l, q)) [false; true]) LS).
  { intros f. apply rsum_prod. }
  transitivity (Ci K * rsum (fun x => dis (fun s t => tV (fst x) s t (snd x)) b bp) (lq nb)); [|now rewrite LQ].
  unfold ph_lindblad. rewrite rsum_app, !rsum_flat_map, rsum_prod.
  assert (C2 : forall (f : nat * bool -> nat -> nat -> C) r X Y,
    rsum (fun x => rsum (fun y => rsum (fun l => f l x y) (lq nb) * r x y) Y) X =
    rsum (fun l => rsum (fun x => rsum (fun y => f l x y * r x y) Y) X) (lq nb)).
  { intros. symmetry. etransitivity; [apply rsum_swap|]. apply rsum_ext. intros x _. etransitivity; [apply rsum_swap|].
    apply rsum_ext. intros y _. apply rsum_mul_r. }
  assert (CB : forall (f : nat * bool -> nat -> nat -> C) r X Y,
    rsum (fun y => rsum (fun x => rsum (fun l => f l x y) (lq nb)) X * r y) Y =
    rsum (fun l => rsum (fun x => rsum (fun y => f l x y * r y) Y) X) (lq nb)).
  { intros. symmetry. etransitivity; [apply rsum_swap|].
    etransitivity; [apply rsum_ext; intros x _; apply rsum_swap|]. etransitivity; [apply rsum_swap|].
    apply rsum_ext. intros y _. rewrite <- rsum_mul_r. apply rsum_ext. intros x _. apply rsum_mul_r. }
  unfold dis. rewrite !rsum_plus, <- C2, <- !CB.
  match goal with |- ?x + ?y = ?i * (?x' + (?y' + ?z')) =>
    assert (E1 : x = i * x'); [|assert (E2 : y = i * (y' + z')); [|rewrite E1, E2; ring]] end.
  - rewrite <- rsum_mul_l. apply rsum_ext. intros a Ha. rewrite <- rsum_mul_l. apply rsum_ext. intros ap Hap.
    rewrite gate1. rewrite (rsum_ext C _ _ (fun x => tV (fst x) b a (snd x) * conj (tV (fst x) bp ap (snd x))) (lq nb)).
    2:{ intros [l q] _. reflexivity. }
    ring.
  - rewrite <- rsum_plus, <- rsum_mul_l. apply rsum_ext. intros v Hv. rewrite gate2.
    match goal with |- ?i * ?x * ?r + ?i * ?y * ?s = ?i * (?x' * ?r + ?y' * ?s) =>
      assert (F1 : x = x'); [|assert (F2 : y = y'); [|rewrite F1, F2; ring]] end.
    + apply rsum_ext. intros a Ha. apply rsum_ext. intros [l q] _. reflexivity.
    + apply rsum_ext. intros a Ha. apply rsum_ext. intros [l q] _. reflexivity.
Qed.
End El.
Lemma lin_bath_herm : forall l, herm_on K L (ph_lindblad_bath K SS N h tV dens l).
Proof.
  intros l s t Hs Ht. unfold ph_lindblad_bath. rewrite rsum_conj. apply rsum_ext. intros q _. apply (diss_herm K L LO N HN phi); auto.
Qed.
End Lin.

(** *** Trace over a block *)
Lemma lin_trace : forall (h : K) X c, (0 <= c)%Z -> h + h = 1 -> rsum (fun s => dis h c X s s) (states L c) = 0.
Proof.
  intros h X c Hc Hh. unfold dis. rewrite !rsum_plus.
  set (SC := states L c).
  set (Y := rsum (fun s => rsum (fun a => rsum (fun ap => X s a * conj (X s ap) * rho a ap c) SC) SC) SC).
  assert (A : rsum (fun s => rsum (fun a => rsum (fun v => - ofR h * conj (X a s) * X a v * rho v s c) SC) SC) SC = - ofR h * Y).
  { unfold Y. rewrite <- rsum_mul_l. etransitivity; [apply rsum_swap|]. apply rsum_ext. intros a _.
    rewrite <- rsum_mul_l. etransitivity; [apply rsum_swap|]. apply rsum_ext. intros v _. rewrite <- rsum_mul_l. apply rsum_ext. intros u _. ring. }
  assert (B : rsum (fun s => rsum (fun a => rsum (fun v => - ofR h * conj (X a v) * X a s * rho s v c) SC) SC) SC = - ofR h * Y).
  { unfold Y. rewrite <- rsum_mul_l. etransitivity; [apply rsum_swap|]. apply rsum_ext. intros a _.
    rewrite <- rsum_mul_l. apply rsum_ext. intros v _. rewrite <- rsum_mul_l. apply rsum_ext. intros u _. ring. }
  rewrite A, B. assert (O : ofR h + ofR h = (1 : C)).
  { apply cplx_eq; [change (h + h = 1); auto|change ((0 : K) + 0 = 0); ring]. }
  transitivity (Y - (ofR h + ofR h) * Y); [ring|]. rewrite O. ring.
Qed.

(** *** Pauli *)
Section Pauli.
Definition pval (x : call K) : K := match x with CPauli _ fm fp bb aa => fm * phi bb + fp * phi aa | _ => 0 end.
Lemma pauli_gen_row : forall cpl,
  (forall b c x, (0 <= c)%Z -> In b (states L c) -> In x (cpl b b c) ->
     exists fm fp aa, x = CPauli K fm fp (ind0 L b b c) aa /\ inr (ly_npauli L) aa) ->
  forall b c, (0 <= c)%Z -> In b (states L c) ->
  act K (ly_npauli L) (kern_of K L (generate_kern_pauli K L cpl)) phi (ind0 L b b c) = rsum pval (cpl b b c).
Proof.
  intros cpl OK b c Hc Hb. unfold kern_of. rewrite act_updates.
  2:{ intros u Hu. apply in_flat_map in Hu. destruct Hu as (x & Hx & Hu). unfold generate_kern_pauli in Hx.
      apply in_flat_map in Hx. destruct Hx as (c' & Hc' & Hx). apply charges_in in Hc'.
      apply in_flat_map in Hx. destruct Hx as (b' & Hb' & Hx). destruct (is_unique L b' b' c'); [|destruct Hx].
      destruct (OK b' c' x) as (fm & fp & aa & -> & Ha); auto; try lia.
      destruct (lo_diag L LO b' c') as (A & _); auto; try lia.
      destruct Hu as [<-|[<-|[]]]; simpl; auto. }
  rewrite rsum_flat_map. unfold generate_kern_pauli. rewrite rsum_flat_map.
  assert (ONE : forall c' b', (0 <= c')%Z -> In b' (states L c') ->
    rsum (fun x => rsum (fun u : (Z * Z) * K => if Z.eq_dec (ind0 L b b c) (fst (fst u)) then snd u * phi (snd (fst u)) else 0) (kh_updates K L x))
      (if is_unique L b' b' c' then cpl b' b' c' else []) =
    if Z.eq_dec (ind0 L b b c) (ind0 L b' b' c') then rsum pval (cpl b' b' c') else 0).
  { intros c' b' Hc' Hb'. unfold is_unique. destruct (lo_diag L LO b' c') as (A & -> & _); auto.
    destruct (Z.eq_dec (ind0 L b b c) (ind0 L b' b' c')) as [e|e].
    - apply rsum_ext. intros x Hx. destruct (OK b' c' x) as (fm & fp & aa & -> & Ha); auto.
      cbn [kh_updates rsum fst snd pval]. destruct (Z.eq_dec _ _); [ring|congruence].
    - apply rsum_0. intros x Hx. destruct (OK b' c' x) as (fm & fp & aa & -> & Ha); auto.
      cbn [kh_updates rsum fst snd]. destruct (Z.eq_dec _ _); [congruence|ring]. }
  assert (Lc : In c (charges L)) by (apply charges_in; split; auto; apply (lo_range L LO c b); auto).
  destruct (lo_diag L LO b c Hc Hb) as (A & _).
  assert (Z0 : forall c' b', In c' (charges L) -> In b' (states L c') -> (c', b') <> (c, b) ->
     (if Z.eq_dec (ind0 L b b c) (ind0 L b' b' c') then rsum pval (cpl b' b' c') else 0) = 0).
  { intros c' b' Hc' Hb' Hne. apply charges_in in Hc'. destruct (Z.eq_dec _ _) as [E|E]; auto.
    exfalso. apply Hne. destruct (lo_inj L LO b b c b' b' c') as (-> & [[-> _]|[-> _]]); auto; lia. }
  rewrite (rsum_ext K _ _ (fun c' => rsum (fun b' => if Z.eq_dec (ind0 L b b c) (ind0 L b' b' c') then rsum pval (cpl b' b' c') else 0) (states L c')) (charges L)).
  2:{ intros c' Hc'. pose proof Hc' as Hc''. apply charges_in in Hc''. rewrite rsum_flat_map. apply rsum_ext. intros b' Hb'. apply ONE; auto. lia. }
  rewrite (rsum_single K _ _ (charges L) c (charges_nodup L) Lc).
  - rewrite (rsum_single K _ _ (states L c) b); auto.
    + destruct (Z.eq_dec _ _); congruence.
    + apply (lo_nodup L LO). auto.
    + intros y Hy Hne. apply Z0; auto. congruence.
  - intros y Hy Hne. apply rsum_0. intros b' Hb'. apply Z0; auto. congruence.
Qed.

Variable wp : nat -> Z -> K.
Definition prate (l s t : nat) : K :=
  if (N s =? N t)%nat then (let k := ind0 L2 s t (Z.of_nat (N s)) in if out k then 0 else wp l k) else 0.
Lemma ph_pauli_in : forall b c x, (0 <= c)%Z -> In b (states L c) -> In x (ph_pauli K L L2 nb wp b b c) ->
  exists fm fp aa, x = CPauli K fm fp (ind0 L b b c) aa /\ inr (ly_npauli L) aa.
Proof.
  intros b c x Hc Hb Hx. unfold ph_pauli in Hx. apply in_flat_map in Hx. destruct Hx as (a & Ha & Hx).
  destruct (_ || _)%bool; [destruct Hx|]. destruct Hx as [<-|[]].
  eexists; eexists; eexists; (split; [reflexivity|]). apply (lo_diag L LO); auto.
Qed.
Lemma prate_at : forall l s t c, (0 <= c)%Z -> In s (states L c) -> In t (states L c) ->
  prate l s t = if out (ind0 L2 s t c) then 0 else wp l (ind0 L2 s t c).
Proof. intros l s t c Hc Hs Ht. unfold prate. rewrite (HN c s), (HN c t), Nat.eqb_refl by auto. now rewrite Z2Nat.id by auto. Qed.
Lemma ph_pauli_val : forall b c, (0 <= c)%Z -> In b (states L c) ->
  rsum pval (ph_pauli K L L2 nb wp b b c) =
  rsum (fun l => rsum (fun a => prate l b a * phi (ind0 L a a c) - prate l a b * phi (ind0 L b b c)) (states L c)) LS.
Proof.
  intros b c Hc Hb. unfold ph_pauli. rewrite rsum_flat_map. etransitivity; [|apply rsum_swap]. apply rsum_ext. intros a Ha.
  rewrite (rsum_ext K _ (fun l => prate l b a * phi (ind0 L a a c) - prate l a b * phi (ind0 L b b c)) (fun l => if out (ind0 L2 b a c) then 0 else wp l (ind0 L2 b a c) * phi (ind0 L a a c) - wp l (ind0 L2 a b c) * phi (ind0 L b b c)) LS).
  2:{ intros l _. rewrite !(prate_at _ _ _ c) by auto. rewrite (GS a b c) by auto. destruct (out _); ring. }
  destruct (lo_diag L LO a c Hc Ha) as (A & _).
  assert (out (ind0 L a a c) = false) as -> by (apply Z.eqb_neq; lia). cbn [orb].
  destruct (out (ind0 L2 b a c)).
  - cbn [rsum]. symmetry. now apply (rsum_0 K).
  - cbn [rsum pval]. rewrite rsum_minus, !rsum_mul_r, rsum_opp. ring.
Qed.
Lemma prate_block : forall l b c p, (0 <= c)%Z -> In b (states L c) ->
  rate_eq K SS (prate l) p b = rsum (fun a => prate l b a * p a - prate l a b * p b) (states L c).
Proof.
  intros l b c p Hc Hb. pose proof (lo_range L LO c b Hc Hb) as R.
  pose proof (f_equal (@re K) (blk K L LO N HN c (fun u => ofR (prate l b u * p u - prate l u b * p b)) ltac:(lia))) as X.
  rewrite !(rsum_re K) in X. cbn [re ofR] in X. rewrite <- X. unfold rate_eq. apply rsum_ext. intros u _.
  destruct (Z.eqb_spec (Z.of_nat (N u)) c) as [e|e]; [reflexivity|].
  unfold prate. rewrite (HN c b) by auto. rewrite (Nat.eqb_sym (N u)).
  destruct (Nat.eqb_spec (Z.to_nat c) (N u)); [lia|]. change (re (0 : C)) with (0 : K). ring.
Qed.
Lemma prate_trace : forall l c p, rsum (fun b => rsum (fun a => prate l b a * p a - prate l a b * p b) (states L c)) (states L c) = 0.
Proof.
  intros l c p.
  rewrite (rsum_ext K _ _ (fun b => rsum (fun a => prate l b a * p a) (states L c) - rsum (fun a => prate l a b * p b) (states L c))) by (intros; apply rsum_minus).
  rewrite rsum_minus. rewrite (rsum_swap K _ _ (fun b a => prate l a b * p b)). ring.
Qed.
End Pauli.

(** *** Form of the calls *)
Lemma el_c : forall a ap c, (0 <= c)%Z -> In a (states L c) -> In ap (states L c) -> is_included L a ap c = true -> el L a ap c.
Proof. intros a ap c Hc Ha Hap I. repeat split; auto. unfold is_included in I. apply negb_true_iff, Z.eqb_neq in I. auto. Qed.
Ltac ph_ok := intros b bp c x (Hc & Hb & Hbp & Hi) Hx; repeat (apply in_app_iff in Hx; destruct Hx as [Hx|Hx]);
  apply in_flat_map in Hx; destruct Hx as (p & Hp & Hx);
  try (destruct p as [a ap]; apply in_prod_iff in Hp; destruct Hp as [Hp1 Hp2]);
  try (apply in_app_iff in Hx; destruct Hx as [Hx|Hx]);
  match type of Hx with In _ (if is_included L ?a ?ap c then _ else _) => destruct (is_included L a ap c) eqn:I; [|destruct Hx] end;
  cbv zeta in Hx; try (destruct (_ || _)%bool; [destruct Hx|]); destruct Hx as [<-|[]]; (split; [|exact Logic.I]);
  cbn [call_ok]; auto using el_c.
Lemma ph_vn1_ok : forall h V w b bp c x, el L b bp c -> In x (ph_vn1 K L L2 nb h V w b bp c) ->
  call_ok K L b bp c x /\ (match x with CEnergy _ _ _ _ _ => False | _ => True end).
Proof. intros h V w. unfold ph_vn1. ph_ok. Qed.
Lemma ph_red_ok : forall h V w b bp c x, el L b bp c -> In x (ph_red K L L2 nb h V w b bp c) ->
  call_ok K L b bp c x /\ (match x with CEnergy _ _ _ _ _ => False | _ => True end).
Proof. intros h V w. unfold ph_red. ph_ok. Qed.
Lemma ph_lindblad_ok : forall h tV b bp c x, el L b bp c -> In x (ph_lindblad K L nb h tV b bp c) ->
  call_ok K L b bp c x /\ (match x with CEnergy _ _ _ _ _ => False | _ => True end).
Proof. intros h tV. unfold ph_lindblad. ph_ok. Qed.
End Proofs.
