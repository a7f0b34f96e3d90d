(** The arrays of rates filled by generate_fct of the first-order approaches (base/pauli.py 31-56,
    base/lindblad.py 29-52, base/neumann1.py 33-62, used by Redfield too; elph/pauli.py 33-57). *)
From Coq Require Import String List Arith Lia ZArith Bool Permutation Ring Reals Lra.
From Verif Require Import Base SsqProofs Qn DMIndex DMIndexProofs CRing SpecFunc Layout Kernel KernelProofs PauliProofs CohProofs CohKernels CohCurrents MasterEq PropMaster ElPh.
Import ListNotations.
Open Scope nat_scope.
Local Notation length := List.length.

(** ** Arrays filled by [m[i] = v] *)
Section Writes.
Variables (I V : Type) (ieq : forall a b : I, {a = b} + {a <> b}).
Definition set_at (m : I -> V) (u : I * V) : I -> V := fun i => if ieq i (fst u) then snd u else m i.
Definition run_writes (us : list (I * V)) (m0 : I -> V) : I -> V := fold_left set_at us m0.

Lemma run_writes_val : forall us m0 i v, (forall u, In u us -> fst u = i -> snd u = v) ->
  (m0 i = v \/ exists u, In u us /\ fst u = i) -> run_writes us m0 i = v.
Proof.
  induction us as [|u us IH]; simpl; intros m0 i v H X.
  - destruct X as [X|(u & [] & _)]. exact X.
  - apply IH; auto. unfold set_at. destruct (ieq i (fst u)) as [->|Hne]; auto.
    destruct X as [X|(u' & [->|Hin] & E)]; auto; [congruence|]. right. exists u'. auto.
Qed.
End Writes.
Arguments run_writes {I V}.

Definition eqk : forall a b : nat * nat * bool, {a = b} + {a <> b}.
Proof. decide equality; [apply Bool.bool_dec|apply eq2]. Defined.
Definition eqlz : forall a b : nat * Z, {a = b} + {a <> b}.
Proof. decide equality; [apply Z.eq_dec|apply Nat.eq_dec]. Defined.

Local Notation Cr := (Cx RRing).

(** ** Model *)
Section Model.
Variables (L : Lay) (nl : nat).
(** leads.Tba, qd.Ea, leads.mulst, tlst, dlst[:,0], dlst[:,1], funcp.itype *)
Variables (T : nat -> nat -> nat -> Cr) (E mu tl dm dp : nat -> R) (it : nat).
Variables (quad : R -> R -> R -> R) (digamma_re : R -> R).
Definition fpauli (l : nat) (e : R) : R * R := func_pauli e (mu l) (tl l) (dm l) (dp l) it.
Definition fvn1 (l : nat) (e : R) : Cr * Cr * Cr * Cr := func_1vN quad digamma_re e (mu l) (tl l) (dm l) (dp l) it.
(** the loops: charge in range(ncharge-1), c in statesdm[charge+1], b in statesdm[charge], l in range(nleads) *)
Definition each {A} (f : nat -> nat -> Z -> nat -> list A) : list A :=
  flat_map (fun q => flat_map (fun p => let '(c, b) := p in flat_map (fun l => f c b q l) (leads nl))
    (list_prod (states L (q + 1)) (states L q))) (charges1 L).
(** base/pauli.py 43-56 *)
Definition pauli_fct (l k : nat) (s : bool) : R :=
  run_writes eqk (each (fun c b q l =>
      let cb := ind1 L c b q in
      let xcb := re (rmul (T l b c) (T l c b)) in
      let rez := fpauli l (E c - E b)%R in
      [((l, cb, false), (xcb * fst rez)%R); ((l, cb, true), (xcb * snd rez)%R)]))
    (fun _ => 0%R) (l, k, s).
(** base/lindblad.py 42-52 *)
Definition lindblad_fct (l b a : nat) : Cr :=
  run_writes eq3 (each (fun b a q l =>
      let rez := fpauli l (E b - E a)%R in
      [((l, b, a), rmul (@ofR RRing (sqrt (fst rez))) (T l b a)); ((l, a, b), rmul (@ofR RRing (sqrt (snd rez))) (T l a b))]))
    (fun _ => r0) (l, b, a).
(** base/neumann1.py 50-62: phi1fct and phi1fct_energy *)
Definition vn1_fct (l k : nat) (s : bool) : Cr :=
  run_writes eqk (each (fun c b q l =>
      let cb := ind1 L c b q in
      let '(c0, c1, e0, e1) := fvn1 l (E c - E b)%R in
      [((l, cb, false), c0); ((l, cb, true), c1)])) (fun _ => r0) (l, k, s).
Definition vn1_fct_energy (l k : nat) (s : bool) : Cr :=
  run_writes eqk (each (fun c b q l =>
      let cb := ind1 L c b q in
      let '(c0, c1, e0, e1) := fvn1 l (E c - E b)%R in
      [((l, cb, false), e0); ((l, cb, true), e1)])) (fun _ => r0) (l, k, s).
End Model.

(** elph/pauli.py 33-57.  L2 is si_elph; [itertools.permutations(statesdm[charge], 2)] runs over the ordered pairs of
    different positions *)
Section ModelPh.
Variables (L2 : Lay) (nb : nat) (V : nat -> nat -> nat -> Cr) (E : nat -> R).
(** baths.tlst_ph, dlst_ph, bath_func; funcp.eps_elph *)
Variables (tph omm omp : nat -> R) (dos : nat -> R -> R) (eps : R).
Definition permutations2 (l : list nat) : list (nat * nat) := filter (fun p => negb (fst p =? snd p)) (list_prod l l).
Definition xph (l b bp : nat) : R :=
  (1 / 2 * re (radd (rmul (V l b bp) (conj (V l b bp))) (rmul (conj (V l bp b)) (V l bp b))))%R.
Definition ph_fct (l : nat) (k : Z) : R :=
  run_writes eqlz (flat_map (fun q => flat_map (fun p => let '(b, bp) := p in
      if uniq L2 b bp q then
        let bbp := ind0 L2 b bp q in
        map (fun l => ((l, bbp), (xph l b bp * func_pauli_elph (dos l) eps (tph l) (omm l) (omp l) (E b - E bp))%R)) (leads nb)
      else []) (permutations2 (states L2 q))) (charges L2))
    (fun _ => 0%R) (l, k).
End ModelPh.

(** ** Proofs: what each entry of the arrays is *)
Section Lookups.
Variables (L : Lay) (LO : layout L) (nl : nat).
Variables (T : nat -> nat -> nat -> Cr) (E mu tl dm dp : nat -> R) (it : nat).
Variables (quad : R -> R -> R -> R) (digamma_re : R -> R).

Lemma each_in : forall A (f : nat -> nat -> Z -> nat -> list A) x, In x (each L nl f) ->
  exists c b q l, (0 <= q)%Z /\ In c (states L (q + 1)) /\ In b (states L q) /\ l < nl /\ In x (f c b q l).
Proof.
  intros A f x H. unfold each in H. apply in_flat_map in H. destruct H as (q & Hq & H).
  apply in_flat_map in H. destruct H as ([c b] & Hp & H). apply in_prod_iff in Hp. destruct Hp as (Hc & Hb).
  apply in_flat_map in H. destruct H as (l & Hl & H). unfold leads in Hl. apply in_seq in Hl.
  unfold charges1 in Hq. apply in_map_iff in Hq. destruct Hq as (k & <- & _).
  exists c, b, (Z.of_nat k), l. repeat split; auto; lia.
Qed.
Lemma each_of : forall A (f : nat -> nat -> Z -> nat -> list A) x c b q l,
  (0 <= q)%Z -> In c (states L (q + 1)) -> In b (states L q) -> l < nl -> In x (f c b q l) -> In x (each L nl f).
Proof.
  intros A f x c b q l Hq Hc Hb Hl Hx. unfold each. apply in_flat_map. exists q. split.
  - pose proof (lo_range L LO (q + 1) c ltac:(lia) Hc) as R. unfold charges1. apply in_map_iff.
    exists (Z.to_nat q). split; [lia|]. apply in_seq. lia.
  - apply in_flat_map. exists (c, b). split; [now apply in_prod|]. apply in_flat_map. exists l. split; auto.
    unfold leads. apply in_seq. lia.
Qed.

Lemma table_val : forall V (zero : V) (f : nat -> R -> bool -> nat -> nat -> V),
  forall l c b q s, (0 <= q)%Z -> In c (states L (q + 1)) -> In b (states L q) -> l < nl ->
  run_writes eqk (each L nl (fun c b q l => [((l, ind1 L c b q, false), f l (E c - E b)%R false c b);
                                             ((l, ind1 L c b q, true), f l (E c - E b)%R true c b)])) (fun _ => zero) (l, ind1 L c b q, s)
  = f l (E c - E b)%R s c b.
Proof.
  intros V zero f l c b q s Hq Hc Hb Hl. apply run_writes_val.
  - intros u Hu Eu. apply each_in in Hu. destruct Hu as (c' & b' & q' & l' & Hq' & Hc' & Hb' & Hl' & Hu).
    destruct Hu as [<-|[<-|[]]]; cbn [fst snd] in *; injection Eu as -> EI <-;
      destruct (lo_ind1_inj L LO c' b' q' c b q) as (-> & -> & ->); auto.
  - right. exists ((l, ind1 L c b q, s), f l (E c - E b)%R s c b). split; auto.
    apply (each_of _ _ _ c b q l); auto. destruct s; simpl; auto.
Qed.

Lemma pauli_fct_val : forall l c b q s, (0 <= q)%Z -> In c (states L (q + 1)) -> In b (states L q) -> l < nl ->
  pauli_fct L nl T E mu tl dm dp it l (ind1 L c b q) s =
  (re (rmul (T l b c) (T l c b)) * (if s then snd else fst) (fpauli mu tl dm dp it l (E c - E b)%R))%R.
Proof.
  intros l c b q s Hq Hc Hb Hl. unfold pauli_fct.
  rewrite (table_val R 0%R (fun l e s c b => re (rmul (T l b c) (T l c b)) * (if s then snd else fst) (fpauli mu tl dm dp it l e))%R); auto.
Qed.

Definition pick (s : bool) (x : Cr * Cr * Cr * Cr) : Cr := let '(c0, c1, e0, e1) := x in if s then c1 else c0.
Definition pick_e (s : bool) (x : Cr * Cr * Cr * Cr) : Cr := let '(c0, c1, e0, e1) := x in if s then e1 else e0.
Lemma run_writes_ext : forall I V ieq (us us' : list (I * V)) m i, us = us' -> run_writes ieq us m i = run_writes ieq us' m i.
Proof. intros. now subst. Qed.
Lemma each_ext : forall A (f g : nat -> nat -> Z -> nat -> list A), (forall c b q l, f c b q l = g c b q l) -> each L nl f = each L nl g.
Proof.
  intros A f g H. unfold each. apply flat_map_ext. intros q. apply flat_map_ext. intros [c b]. apply flat_map_ext. intros l. apply H.
Qed.
Lemma vn1_fct_val : forall l c b q s, (0 <= q)%Z -> In c (states L (q + 1)) -> In b (states L q) -> l < nl ->
  vn1_fct L nl E mu tl dm dp it quad digamma_re l (ind1 L c b q) s =
  pick s (fvn1 mu tl dm dp it quad digamma_re l (E c - E b)%R).
Proof.
  intros l c b q s Hq Hc Hb Hl. unfold vn1_fct.
  rewrite <- (table_val Cr r0 (fun l e s _ _ => pick s (fvn1 mu tl dm dp it quad digamma_re l e)) l c b q s) by auto.
  apply run_writes_ext. apply each_ext. intros c' b' q' l'. cbv zeta. destruct (fvn1 _ _ _ _ _ _ _ _ _) as [[[c0 c1] e0] e1]. reflexivity.
Qed.
Lemma vn1_fct_energy_val : forall l c b q s, (0 <= q)%Z -> In c (states L (q + 1)) -> In b (states L q) -> l < nl ->
  vn1_fct_energy L nl E mu tl dm dp it quad digamma_re l (ind1 L c b q) s =
  pick_e s (fvn1 mu tl dm dp it quad digamma_re l (E c - E b)%R).
Proof.
  intros l c b q s Hq Hc Hb Hl. unfold vn1_fct_energy.
  rewrite <- (table_val Cr r0 (fun l e s _ _ => pick_e s (fvn1 mu tl dm dp it quad digamma_re l e)) l c b q s) by auto.
  apply run_writes_ext. apply each_ext. intros c' b' q' l'. cbv zeta. destruct (fvn1 _ _ _ _ _ _ _ _ _) as [[[c0 c1] e0] e1]. reflexivity.
Qed.
Lemma lindblad_fct_val : forall l b a q, (0 <= q)%Z -> In b (states L (q + 1)) -> In a (states L q) -> l < nl ->
  lindblad_fct L nl T E mu tl dm dp it l b a = rmul (@ofR RRing (sqrt (fst (fpauli mu tl dm dp it l (E b - E a)%R)))) (T l b a) /\
  lindblad_fct L nl T E mu tl dm dp it l a b = rmul (@ofR RRing (sqrt (snd (fpauli mu tl dm dp it l (E b - E a)%R)))) (T l a b).
Proof.
  intros l b a q Hq Hb Ha Hl. unfold lindblad_fct.
  assert (X : forall c b' q', (0 <= q')%Z -> In c (states L (q' + 1)) -> In b' (states L q') ->
    (c = b /\ b' = a -> True) /\ ~ (c = a /\ b' = b)).
  { intros c b' q' Hq' Hc Hb'. split; auto. intros (-> & ->).
    pose proof (lo_same L LO (q' + 1) q a ltac:(lia) Hq Hc Ha). pose proof (lo_same L LO q' (q + 1) b Hq' ltac:(lia) Hb' Hb). lia. }
  split; apply run_writes_val.
  - intros u Hu Eu. apply each_in in Hu. destruct Hu as (c' & b' & q' & l' & Hq' & Hc' & Hb' & Hl' & Hu).
    destruct Hu as [<-|[<-|[]]]; cbn [fst snd] in *; injection Eu as -> E1 E2; subst; auto.
    exfalso. apply (proj2 (X _ _ _ Hq' Hc' Hb')). auto.
  - right. eexists. split; [apply (each_of _ _ _ b a q l); auto; left; reflexivity|reflexivity].
  - intros u Hu Eu. apply each_in in Hu. destruct Hu as (c' & b' & q' & l' & Hq' & Hc' & Hb' & Hl' & Hu).
    destruct Hu as [<-|[<-|[]]]; cbn [fst snd] in *; injection Eu as -> E1 E2; subst; auto.
    exfalso. apply (proj2 (X _ _ _ Hq' Hc' Hb')). auto.
  - right. eexists. split; [apply (each_of _ _ _ b a q l); auto; right; left; reflexivity|reflexivity].
Qed.
End Lookups.
