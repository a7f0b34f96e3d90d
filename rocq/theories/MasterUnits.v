(** The 1vN master equation as a tensor: what the element (s, t) of a Hermitian operator contributes to the element (p, q)
    of its change.  Spec side; no index of the code occurs here. *)
From Coq Require Import String List Arith Lia ZArith Bool Ring.
From Verif Require Import Base CRing Layout Kernel CohProofs MasterEq.
Import ListNotations.
Open Scope nat_scope.
Local Notation length := List.length.

Section Units.
Variable K : CRing.
Local Notation C := (Cx K).
Local Open Scope rng_scope.
Add Ring KrUn : (rth K).
Add Ring CrUn : (rth (Cx K)).
Variables (SS : list nat) (N : nat -> nat) (T : nat -> Op K) (F0 F1 : nat -> Op K).
Hypothesis ND : NoDup SS.
Hypothesis HT : forall l s t, conj (T l s t) = T l t s.
Local Notation vn1 := (vn1_lead K SS N T F0 F1).

(** the amplitude of the vertex between u and v, seen from the upper and from the lower propagator *)
Definition g0 (l u v : nat) : C := (if N u =? S (N v) then F0 l u v else 0) + (if S (N u) =? N v then conj (F1 l v u) else 0).
Definition g1 (l u v : nat) : C := (if N u =? S (N v) then F1 l u v else 0) + (if S (N u) =? N v then conj (F0 l v u) else 0).
Definition unit_elem (l p q s t : nat) : C :=
  - Ci K * ((if t =? q then rsum (fun u => T l p u * T l u s * g0 l u q) SS else 0)
            - (if p =? s then rsum (fun u => T l t u * T l u q * g1 l p u) SS else 0)
            + T l p s * T l t q * (g1 l s q - g0 l p t)).

Lemma conj_if : forall (b : bool) (x : C), conj (if b then x else 0) = if b then conj x else 0.
Proof. intros [|] x; auto. exact (conj_0 K). Qed.

(** Phi + Phi^+ *)
Lemma phi_sum : forall X l u v, (forall s t, In s SS -> In t SS -> conj (X s t) = X t s) -> In u SS -> In v SS ->
  op_add K (vn1_phi K SS N T F0 F1 X l) (op_adj K (vn1_phi K SS N T F0 F1 X l)) u v =
  g0 l u v * rsum (fun s => T l u s * X s v) SS + g1 l u v * rsum (fun t => X u t * T l t v) SS.
Proof.
  intros X l u v HX Hu Hv. unfold op_add, op_adj, vn1_phi, op_up, op_add, op_had, op_mul, g0, g1.
  rewrite conj_if, conj_add, !conj_mul, !rsum_conj.
  rewrite (rsum_ext C _ (fun x => conj (T l v x * X x u)) (fun t => X u t * T l t v)).
  2:{ intros x Hx. rewrite conj_mul, HT, HX by auto. ring. }
  rewrite (rsum_ext C _ (fun x => conj (X v x * T l x u)) (fun s => T l u s * X s v)).
  2:{ intros x Hx. rewrite conj_mul, HT, HX by auto. ring. }
  rewrite (Nat.eqb_sym (N v) (S (N u))).
  destruct (N u =? S (N v)), (S (N u) =? N v); ring.
Qed.

Lemma pick : forall x (f : nat -> C), In x SS -> rsum (fun y => if y =? x then f y else 0) SS = f x.
Proof. intros x f Hx. exact (rsum_if_nat C f SS x ND Hx). Qed.

Theorem vn1_units : forall X l p q, (forall s t, In s SS -> In t SS -> conj (X s t) = X t s) -> In p SS -> In q SS ->
  vn1 X l p q = rsum (fun s => rsum (fun t => unit_elem l p q s t * X s t) SS) SS.
Proof.
  intros X l p q HX Hp Hq. unfold vn1_lead, op_comm, op_mul.
  rewrite (rsum_ext C _ _ (fun u => T l p u * (g0 l u q * rsum (fun s => T l u s * X s q) SS + g1 l u q * rsum (fun t => X u t * T l t q) SS))).
  2:{ intros u Hu. now rewrite (phi_sum X l u q). }
  rewrite (rsum_ext C _ (fun u => op_add K _ _ p u * T l u q) (fun u => (g0 l p u * rsum (fun s => T l p s * X s u) SS + g1 l p u * rsum (fun t => X p t * T l t u) SS) * T l u q)).
  2:{ intros u Hu. now rewrite (phi_sum X l p u). }
  (* the four parts *)
  assert (A : rsum (fun s => rsum (fun t => (if t =? q then rsum (fun u => T l p u * T l u s * g0 l u q) SS else 0) * X s t) SS) SS =
              rsum (fun u => T l p u * (g0 l u q * rsum (fun s => T l u s * X s q) SS)) SS).
  { transitivity (rsum (fun s => rsum (fun u => T l p u * T l u s * g0 l u q * X s q) SS) SS).
    - apply (rsum_ext C). intros s _.
      rewrite (rsum_ext C _ _ (fun t => if t =? q then rsum (fun u => T l p u * T l u s * g0 l u q) SS * X s t else 0)) by (intros t _; destruct (t =? q); ring).
      rewrite (pick q (fun t => _) Hq). now rewrite <- (rsum_mul_r C).
    - rewrite (rsum_swap C). apply (rsum_ext C). intros u _. rewrite <- !(rsum_mul_l C). apply (rsum_ext C). intros s _. ring. }
  assert (B : rsum (fun s => rsum (fun t => (if p =? s then rsum (fun u => T l t u * T l u q * g1 l p u) SS else 0) * X s t) SS) SS =
              rsum (fun u => g1 l p u * rsum (fun t => X p t * T l t u) SS * T l u q) SS).
  { transitivity (rsum (fun t => rsum (fun u => T l t u * T l u q * g1 l p u * X p t) SS) SS).
    - rewrite (rsum_swap C). apply (rsum_ext C). intros t _.
      rewrite (rsum_ext C _ _ (fun s => if s =? p then rsum (fun u => T l t u * T l u q * g1 l p u) SS * X s t else 0)) by (intros s _; rewrite (Nat.eqb_sym p s); destruct (s =? p); ring).
      rewrite (pick p (fun s => _) Hp). now rewrite <- (rsum_mul_r C).
    - rewrite (rsum_swap C). apply (rsum_ext C). intros u _. rewrite <- (rsum_mul_l C), <- (rsum_mul_r C). apply (rsum_ext C). intros s _. ring. }
  assert (D : rsum (fun s => rsum (fun t => T l p s * T l t q * g1 l s q * X s t) SS) SS =
              rsum (fun u => T l p u * (g1 l u q * rsum (fun t => X u t * T l t q) SS)) SS).
  { apply (rsum_ext C). intros s _. rewrite <- !(rsum_mul_l C). apply (rsum_ext C). intros t _. ring. }
  assert (G : rsum (fun s => rsum (fun t => T l p s * T l t q * g0 l p t * X s t) SS) SS =
              rsum (fun u => g0 l p u * rsum (fun s => T l p s * X s u) SS * T l u q) SS).
  { rewrite (rsum_swap C). apply (rsum_ext C). intros t _. rewrite <- (rsum_mul_l C), <- (rsum_mul_r C). apply (rsum_ext C). intros s _. ring. }
  transitivity (- Ci K * (rsum (fun s => rsum (fun t => (if t =? q then rsum (fun u => T l p u * T l u s * g0 l u q) SS else 0) * X s t) SS) SS
    - rsum (fun s => rsum (fun t => (if p =? s then rsum (fun u => T l t u * T l u q * g1 l p u) SS else 0) * X s t) SS) SS
    + (rsum (fun s => rsum (fun t => T l p s * T l t q * g1 l s q * X s t) SS) SS - rsum (fun s => rsum (fun t => T l p s * T l t q * g0 l p t * X s t) SS) SS))).
  - rewrite A, B, D, G.
    rewrite (rsum_ext C _ _ (fun u => T l p u * (g0 l u q * rsum (fun s => T l u s * X s q) SS) + T l p u * (g1 l u q * rsum (fun t => X u t * T l t q) SS))) by (intros; ring).
    rewrite (rsum_ext C _ (fun u => (g0 l p u * _ + _) * T l u q) (fun u => g0 l p u * rsum (fun s => T l p s * X s u) SS * T l u q + g1 l p u * rsum (fun t => X p t * T l t u) SS * T l u q)) by (intros; ring).
    rewrite !(rsum_plus C). ring.
  - rewrite <- !(rsum_minus C), <- (rsum_plus C), <- (rsum_mul_l C). apply (rsum_ext C). intros s _.
    rewrite <- !(rsum_minus C), <- (rsum_plus C), <- (rsum_mul_l C). apply (rsum_ext C). intros t _. unfold unit_elem. ring.
Qed.
End Units.
