(** Changing the basis of the many-body states by a matrix U that mixes states of one charge and one energy only:
    the specification side of C56. *)
From Coq Require Import String List Arith Lia ZArith Bool Permutation Ring.
From Verif Require Import Base CRing Kernel MasterEq.
Import ListNotations.
Open Scope nat_scope.
Local Notation length := List.length.

Section Basis.
Variable K : CRing.
Local Notation C := (Cx K).
Local Open Scope rng_scope.
Add Ring KrBC : (rth K).
Add Ring CrBC : (rth (Cx K)).
Variables (S_ : list nat) (N : nat -> nat) (E : nat -> K) (U : Op K).
Local Notation Op := (Op K).
Local Notation om := (op_mul K S_).
(** U X U^+ *)
Definition rot (X : Op) : Op := fun s t => rsum (fun u => rsum (fun v => U s u * X u v * conj (U t v)) S_) S_.
(** equality on the states *)
Definition same (X Y : Op) : Prop := forall s t, In s S_ -> In t S_ -> X s t = Y s t.
(** U U^+ = 1 = U^+ U *)
Definition delta (s t : nat) : C := if (s =? t)%nat then 1 else 0.
Definition unitary : Prop := (forall s t, In s S_ -> In t S_ -> rsum (fun u => U s u * conj (U t u)) S_ = delta s t) /\
  (forall s t, In s S_ -> In t S_ -> rsum (fun u => conj (U u s) * U u t) S_ = delta s t).
(** states of different charge or energy are not mixed *)
Definition mixes_equal : Prop := forall s t, In s S_ -> In t S_ -> U s t = 0 \/ (N s = N t /\ E s = E t).

Hypotheses (ND : NoDup S_) (UN : unitary) (ME : mixes_equal).

Lemma delta_l : forall t (f : nat -> C), In t S_ -> rsum (fun u => delta u t * f u) S_ = f t.
Proof.
  intros t f Ht. rewrite (rsum_single C _ _ S_ t ND Ht).
  - unfold delta. rewrite Nat.eqb_refl. ring.
  - intros y _ Hy. unfold delta. apply Nat.eqb_neq in Hy. rewrite Hy. ring.
Qed.
Lemma delta_r : forall s (f : nat -> C), In s S_ -> rsum (fun u => f u * delta s u) S_ = f s.
Proof.
  intros s f Hs. rewrite (rsum_single C _ _ S_ s ND Hs).
  - unfold delta. rewrite Nat.eqb_refl. ring.
  - intros y _ Hy. unfold delta. apply not_eq_sym, Nat.eqb_neq in Hy. rewrite Hy. ring.
Qed.

Lemma rot_ext : forall X Y, same X Y -> forall s t, rot X s t = rot Y s t.
Proof. intros X Y H s t. unfold rot. apply rsum_ext. intros u Hu. apply rsum_ext. intros v Hv. now rewrite H. Qed.
Lemma rot_add : forall X Y s t, rot (op_add K X Y) s t = rot X s t + rot Y s t.
Proof.
  intros X Y s t. unfold rot, op_add. rewrite <- rsum_plus. apply rsum_ext. intros u _. rewrite <- rsum_plus. apply rsum_ext. intros v _. ring.
Qed.
Lemma rot_scale : forall c X s t, rot (fun s t => c * X s t) s t = c * rot X s t.
Proof.
  intros c X s t. unfold rot. rewrite <- rsum_mul_l. apply rsum_ext. intros u _. rewrite <- rsum_mul_l. apply rsum_ext. intros v _. ring.
Qed.
Lemma rot_sub : forall X Y s t, rot (fun s t => X s t - Y s t) s t = rot X s t - rot Y s t.
Proof.
  intros X Y s t. unfold rot. rewrite <- rsum_minus. apply rsum_ext. intros u _. rewrite <- rsum_minus. apply rsum_ext. intros v _. ring.
Qed.
Lemma rot_sum : forall (f : nat -> Op) ls s t, rot (fun s t => rsum (fun l => f l s t) ls) s t = rsum (fun l => rot (f l) s t) ls.
Proof.
  intros f ls s t. induction ls as [|l ls IH]; cbn [rsum].
  - unfold rot. apply rsum_0. intros u _. apply rsum_0. intros v _. ring.
  - rewrite <- IH. rewrite <- rot_add. apply rot_ext. intros a b _ _. reflexivity.
Qed.
Lemma rot_adj : forall X s t, rot (op_adj K X) s t = op_adj K (rot X) s t.
Proof.
  intros X s t. unfold rot, op_adj. rewrite rsum_conj. rewrite rsum_swap. apply rsum_ext. intros v _. rewrite rsum_conj. apply rsum_ext. intros u _.
  rewrite !conj_mul, conj_conj. ring.
Qed.
Lemma rot_herm : forall X, (forall s t, conj (X s t) = X t s) -> forall s t, conj (rot X s t) = rot X t s.
Proof. intros X H s t. change (op_adj K (rot X) t s = rot X t s). rewrite <- rot_adj. apply rot_ext. intros a b _ _. apply H. Qed.
Lemma rot_herm_on : forall X, (forall s t, In s S_ -> In t S_ -> conj (X s t) = X t s) -> forall s t, conj (rot X s t) = rot X t s.
Proof. intros X H s t. change (op_adj K (rot X) t s = rot X t s). rewrite <- rot_adj. apply rot_ext. intros a b Ha Hb. now apply H. Qed.
Lemma rot_mul : forall X Y s t, rot (om X Y) s t = om (rot X) (rot Y) s t.
Proof.
  intros X Y s t.
  transitivity (rsum (fun u => rsum (fun v => rsum (fun x => rsum (fun y => U s u * X u x * delta x y * Y y v * conj (U t v)) S_) S_) S_) S_ : C).
  - apply rsum_ext. intros u _. apply rsum_ext. intros v _. unfold op_mul.
    symmetry. rewrite (rsum_ext C _ _ (fun x => U s u * X u x * Y x v * conj (U t v))).
    2:{ intros x Hx. rewrite (rsum_ext C _ _ (fun y => (U s u * X u x * Y y v * conj (U t v)) * delta x y)) by (intros; ring). now rewrite (delta_r x). }
    rewrite <- rsum_mul_l, <- rsum_mul_r. apply rsum_ext. intros; ring.
  - unfold op_mul, rot.
    transitivity (rsum (fun u => rsum (fun v => rsum (fun x => rsum (fun y => rsum (fun w => U s u * X u x * conj (U w x) * (U w y * Y y v * conj (U t v))) S_) S_) S_) S_) S_ : C).
    { apply rsum_ext. intros u _. apply rsum_ext. intros v _. apply rsum_ext. intros x Hx. apply rsum_ext. intros y Hy.
      rewrite <- (proj2 UN x y Hx Hy). transitivity ((rsum (fun w => conj (U w x) * U w y) S_ * (U s u * X u x * Y y v * conj (U t v))) : C); [ring|].
      rewrite <- rsum_mul_r. apply rsum_ext. intros; ring. }
    (* the sum over w goes first *)
    transitivity (rsum (fun w => rsum (fun u => rsum (fun x => rsum (fun y => rsum (fun v => U s u * X u x * conj (U w x) * (U w y * Y y v * conj (U t v))) S_) S_) S_) S_) S_ : C).
    + symmetry. rewrite (rsum_swap C). apply rsum_ext. intros u _.
      transitivity (rsum (fun w => rsum (fun v => rsum (fun x => rsum (fun y => U s u * X u x * conj (U w x) * (U w y * Y y v * conj (U t v))) S_) S_) S_) S_ : C).
      * apply rsum_ext. intros w _.
        rewrite (rsum_ext C _ _ (fun x => rsum (fun v => rsum (fun y => U s u * X u x * conj (U w x) * (U w y * Y y v * conj (U t v))) S_) S_)) by (intros; apply rsum_swap).
        apply rsum_swap.
      * rewrite (rsum_swap C). apply rsum_ext. intros v _. rewrite (rsum_swap C). apply rsum_ext. intros x _. apply rsum_swap.
    + apply rsum_ext. intros w _. rewrite <- rsum_mul_r. apply rsum_ext. intros u _. rewrite <- rsum_mul_r. apply rsum_ext. intros x _.
      rewrite <- rsum_mul_l. apply rsum_ext. intros y _. rewrite <- rsum_mul_l. reflexivity.
Qed.
Lemma mul_same : forall X X' Y Y', same X X' -> same Y Y' -> same (om X Y) (om X' Y').
Proof. intros X X' Y Y' HX HY s t Hs Ht. unfold op_mul. apply rsum_ext. intros u Hu. now rewrite HX, HY. Qed.
(** entries that depend on the charges and energies only *)
Definition by_level (G : Op) : Prop := forall s t s' t', In s S_ -> In t S_ -> In s' S_ -> In t' S_ ->
  N s = N s' -> E s = E s' -> N t = N t' -> E t = E t' -> G s t = G s' t'.
Lemma rot_had : forall G X, by_level G -> same (rot (op_had K G X)) (op_had K G (rot X)).
Proof.
  intros G X H s t Hs Ht. unfold rot, op_had. rewrite <- rsum_mul_l. apply rsum_ext. intros u Hu. rewrite <- rsum_mul_l. apply rsum_ext. intros v Hv.
  destruct (ME s u Hs Hu) as [->|(A & B)]; [ring|]. destruct (ME t v Ht Hv) as [->|(A' & B')]; [rewrite conj_0; ring|].
  rewrite (H s t u v) by auto. ring.
Qed.
Lemma rot_gate : forall (g : nat -> nat -> bool) X, (forall s t s' t', N s = N s' -> N t = N t' -> g s t = g s' t') ->
  same (rot (fun s t => if g s t then X s t else 0)) (fun s t => if g s t then rot X s t else 0).
Proof.
  intros g X H s t Hs Ht. transitivity (op_had K (fun s t => if g s t then 1 else 0) (rot X) s t).
  - rewrite <- rot_had; auto.
    + apply rot_ext. intros a b _ _. unfold op_had. destruct (g a b); ring.
    + intros a b a' b' _ _ _ _ A _ B _. now rewrite (H a b a' b').
  - unfold op_had. destruct (g s t); ring.
Qed.
Lemma rot_up : forall X, same (rot (op_up K N X)) (op_up K N (rot X)).
Proof. intros X. apply (rot_gate (fun s t => (N s =? S (N t))%nat)). intros s t s' t' -> ->. reflexivity. Qed.
Lemma rot_dn : forall X, same (rot (op_dn K N X)) (op_dn K N (rot X)).
Proof. intros X. apply (rot_gate (fun s t => (S (N s) =? N t)%nat)). intros s t s' t' -> ->. reflexivity. Qed.
Lemma up_same : forall X Y, same X Y -> same (op_up K N X) (op_up K N Y).
Proof. intros X Y H s t Hs Ht. unfold op_up. now rewrite H. Qed.
Lemma dn_same : forall X Y, same X Y -> same (op_dn K N X) (op_dn K N Y).
Proof. intros X Y H s t Hs Ht. unfold op_dn. now rewrite H. Qed.
Lemma add_same : forall X X' Y Y', same X X' -> same Y Y' -> same (op_add K X Y) (op_add K X' Y').
Proof. intros X X' Y Y' HX HY s t Hs Ht. unfold op_add. now rewrite HX, HY. Qed.
Lemma had_same : forall G X Y, same X Y -> same (op_had K G X) (op_had K G Y).
Proof. intros G X Y H s t Hs Ht. unfold op_had. now rewrite H. Qed.
Lemma adj_same : forall X Y, same X Y -> same (op_adj K X) (op_adj K Y).
Proof. intros X Y H s t Hs Ht. unfold op_adj. now rewrite H. Qed.
Lemma same_trans : forall X Y Z, same X Y -> same Y Z -> same X Z.
Proof. intros X Y Z A B s t Hs Ht. now rewrite A, B. Qed.
Lemma rot_energy : same (rot (op_energy K E)) (op_energy K E).
Proof.
  intros s t Hs Ht. unfold rot, op_energy.
  transitivity (rsum (fun u => U s u * ofR (E u) * conj (U t u)) S_ : C).
  - apply rsum_ext. intros u Hu. rewrite (rsum_single C _ _ S_ u ND Hu).
    + now rewrite Nat.eqb_refl.
    + intros y _ Hy. apply not_eq_sym, Nat.eqb_neq in Hy. rewrite Hy. ring.
  - transitivity (ofR (E s) * rsum (fun u => U s u * conj (U t u)) S_ : C).
    + rewrite <- rsum_mul_l. apply rsum_ext. intros u Hu. destruct (ME s u Hs Hu) as [->|(_ & ->)]; ring.
    + rewrite (proj1 UN s t Hs Ht). unfold delta. destruct (s =? t)%nat; ring.
Qed.
Lemma rot_comm : forall X Y s t, rot (op_comm K S_ X Y) s t = op_comm K S_ (rot X) (rot Y) s t.
Proof. intros X Y s t. unfold op_comm. rewrite rot_sub. now rewrite !rot_mul. Qed.
Lemma comm_same : forall X X' Y Y', same X X' -> same Y Y' -> same (op_comm K S_ X Y) (op_comm K S_ X' Y').
Proof. intros X X' Y Y' HX HY s t Hs Ht. unfold op_comm. now rewrite (mul_same X X' Y Y'), (mul_same Y Y' X X'). Qed.
(** weights that depend on the level only: the trace with them does not change *)
Lemma rot_trace : forall (w : nat -> C) X, (forall s s', N s = N s' -> E s = E s' -> w s = w s') ->
  rsum (fun s => w s * rot X s s) S_ = rsum (fun s => w s * X s s) S_.
Proof.
  intros w X H.
  transitivity (rsum (fun u => rsum (fun v => w u * X u v * rsum (fun s => conj (U s v) * U s u) S_) S_) S_ : C).
  - transitivity (rsum (fun s => rsum (fun u => rsum (fun v => w u * (U s u * X u v * conj (U s v))) S_) S_) S_ : C).
    + apply rsum_ext. intros s Hs. unfold rot. rewrite <- rsum_mul_l. apply rsum_ext. intros u Hu. rewrite <- rsum_mul_l. apply rsum_ext. intros v Hv.
      destruct (ME s u Hs Hu) as [->|(A & B)]; [ring|]. now rewrite (H s u A B).
    + rewrite (rsum_swap C). apply rsum_ext. intros u _. rewrite (rsum_swap C). apply rsum_ext. intros v _. rewrite <- rsum_mul_l. apply rsum_ext. intros; ring.
  - apply rsum_ext. intros u Hu.
    rewrite (rsum_ext C _ _ (fun v => delta v u * (w u * X u v))) by (intros v Hv; rewrite (proj2 UN v u Hv Hu); ring).
    now rewrite delta_l.
Qed.

(** *** the three master equations *)
Variables (nl : nat) (T T' : nat -> Op) (r r' : Op).
Hypotheses (HT : forall l, (l < nl)%nat -> same (T' l) (rot (T l))) (Hr : same r' (rot r)).
Lemma master_rot : forall lead lead', (forall l, (l < nl)%nat -> same (lead' r' l) (rot (lead r l))) ->
  same (master K S_ E nl lead' r') (rot (master K S_ E nl lead r)).
Proof.
  intros lead lead' H s t Hs Ht. unfold master.
  rewrite (rot_add (fun s t => - Ci K * op_comm K S_ (op_energy K E) r s t) (fun s t => rsum (fun l => lead r l s t) (leads nl))).
  rewrite (rot_scale (- Ci K) (op_comm K S_ (op_energy K E) r)), rot_comm, rot_sum. f_equal.
  - f_equal. apply comm_same; auto. intros a b Ha Hb. symmetry. now apply rot_energy.
  - apply rsum_ext. intros l Hl. unfold leads in Hl. apply in_seq in Hl. apply H; auto. lia.
Qed.
Lemma diss_rot : forall h A A', same A' (rot A) -> same (dissipator K S_ h A' r') (rot (dissipator K S_ h A r)).
Proof.
  intros h A A' HA s t Hs Ht. unfold dissipator.
  rewrite (rot_sub (op_mul K S_ (op_mul K S_ A r) (op_adj K A))
    (fun s t => ofR h * (op_mul K S_ (op_mul K S_ (op_adj K A) A) r s t + op_mul K S_ r (op_mul K S_ (op_adj K A) A) s t))).
  rewrite (rot_scale (ofR h) (op_add K (op_mul K S_ (op_mul K S_ (op_adj K A) A) r) (op_mul K S_ r (op_mul K S_ (op_adj K A) A)))), rot_add.
  assert (J : same (op_adj K A') (rot (op_adj K A))).
  { intros a b Ha Hb. rewrite rot_adj. now apply adj_same. }
  assert (M : forall X Y X' Y', same X' (rot X) -> same Y' (rot Y) -> same (om X' Y') (rot (om X Y))).
  { intros X Y X' Y' HX HY a b Ha Hb. rewrite rot_mul. now apply mul_same. }
  f_equal; [|f_equal; f_equal].
  - apply M; auto.
  - apply M; auto.
  - apply M; auto.
Qed.
Lemma lindblad_rot : forall h tL tL' l, same (op_up K N (tL' l)) (rot (op_up K N (tL l))) -> same (op_dn K N (tL' l)) (rot (op_dn K N (tL l))) ->
  same (lindblad_lead K S_ N h tL' r' l) (rot (lindblad_lead K S_ N h tL r l)).
Proof.
  intros h tL tL' l H1 H2 s t Hs Ht. unfold lindblad_lead. rewrite rot_add. unfold op_add. f_equal; apply diss_rot; auto.
Qed.
Variables (F0 F1 : nat -> Op).
(** the amplitudes of an electron entering depend on the levels only *)
Hypothesis HF : forall l s t s' t', (l < nl)%nat -> In s S_ -> In t S_ -> In s' S_ -> In t' S_ -> N s = S (N t) ->
  N s = N s' -> E s = E s' -> N t = N t' -> E t = E t' -> F0 l s t = F0 l s' t' /\ F1 l s t = F1 l s' t'.
Lemma F_up : forall l, (l < nl)%nat -> by_level (op_up K N (F0 l)) /\ by_level (op_up K N (F1 l)).
Proof.
  intros l Hl. split; intros s t s' t' Hs Ht Hs' Ht' A B A' B'; unfold op_up; rewrite <- A, <- A';
    destruct (Nat.eqb_spec (N s) (S (N t))) as [e|e]; auto; apply (HF l s t s' t'); auto.
Qed.
Lemma up_had : forall (F X : Op) s t, op_up K N (op_had K F X) s t = op_had K (op_up K N F) X s t.
Proof. intros F X s t. unfold op_up, op_had. destruct (_ =? _)%nat; ring. Qed.
Lemma had_rot : forall l (X X' : Op), (l < nl)%nat -> same X' (rot X) ->
  same (op_up K N (op_had K (F0 l) X')) (rot (op_up K N (op_had K (F0 l) X))) /\ same (op_up K N (op_had K (F1 l) X')) (rot (op_up K N (op_had K (F1 l) X))).
Proof.
  intros l X X' Hl HX. destruct (F_up l Hl) as (B0 & B1).
  assert (G : forall F, by_level (op_up K N F) -> same (op_up K N (op_had K F X')) (rot (op_up K N (op_had K F X)))).
  { intros F B s t Hs Ht. rewrite up_had. rewrite (rot_ext (op_up K N (op_had K F X)) (op_had K (op_up K N F) X)) by (intros a b _ _; apply up_had).
    rewrite (rot_had _ X B) by auto. now apply had_same. }
  split; apply G; auto.
Qed.
Lemma vn1_rot : forall l, (l < nl)%nat -> same (vn1_lead K S_ N T' F0 F1 r' l) (rot (vn1_lead K S_ N T F0 F1 r l)).
Proof.
  intros l Hl. assert (M : forall X Y X' Y', same X' (rot X) -> same Y' (rot Y) -> same (om X' Y') (rot (om X Y))).
  { intros X Y X' Y' HX HY a b Ha Hb. rewrite rot_mul. now apply mul_same. }
  assert (P : same (vn1_phi K S_ N T' F0 F1 r' l) (rot (vn1_phi K S_ N T F0 F1 r l))).
  { intros s t Hs Ht. unfold vn1_phi.
    assert (UA : forall X Y : Op, forall a b, op_up K N (op_add K X Y) a b = op_add K (op_up K N X) (op_up K N Y) a b).
    { intros X Y a b. unfold op_up, op_add. destruct (_ =? _)%nat; ring. }
    rewrite UA. rewrite (rot_ext _ _ (fun a b _ _ => UA _ _ a b)), rot_add. unfold op_add.
    destruct (had_rot l (om (T l) r) (om (T' l) r') Hl (M _ _ _ _ (HT l Hl) Hr)) as (A & _).
    destruct (had_rot l (om r (T l)) (om r' (T' l)) Hl (M _ _ _ _ Hr (HT l Hl))) as (_ & B).
    now rewrite A, B. }
  intros s t Hs Ht. unfold vn1_lead.
  rewrite (rot_scale (- Ci K) (op_comm K S_ (T l) (op_add K (vn1_phi K S_ N T F0 F1 r l) (op_adj K (vn1_phi K S_ N T F0 F1 r l))))), rot_comm.
  f_equal. apply comm_same; auto. intros a b Ha Hb. rewrite rot_add, rot_adj. unfold op_add. rewrite P by auto. f_equal. now apply adj_same.
Qed.
Lemma red_rot : forall l, (l < nl)%nat -> same (red_lead K S_ N T' F0 F1 r' l) (rot (red_lead K S_ N T F0 F1 r l)).
Proof.
  intros l Hl. assert (M : forall X Y X' Y', same X' (rot X) -> same Y' (rot Y) -> same (om X' Y') (rot (om X Y))).
  { intros X Y X' Y' HX HY a b Ha Hb. rewrite rot_mul. now apply mul_same. }
  assert (P : same (red_D K N T' F0 F1 l) (rot (red_D K N T F0 F1 l))).
  { intros s t Hs Ht. unfold red_D. rewrite rot_add, rot_adj. unfold op_add.
    destruct (had_rot l (T l) (T' l) Hl (HT l Hl)) as (A & B). rewrite A by auto. f_equal. now apply adj_same. }
  intros s t Hs Ht. unfold red_lead.
  rewrite (rot_scale (- Ci K) (op_comm K S_ (T l) (op_add K (op_mul K S_ (red_D K N T F0 F1 l) r) (op_mul K S_ r (op_adj K (red_D K N T F0 F1 l)))))), rot_comm.
  f_equal. apply comm_same; auto. intros a b Ha Hb. rewrite rot_add. unfold op_add. f_equal; apply M; auto.
  intros x y Hx Hy. rewrite rot_adj. now apply adj_same.
Qed.
End Basis.
