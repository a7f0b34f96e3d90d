(** C66: the RTD kernel and currents do not depend on the band widths of the leads when no state has been removed. *)
From Coq Require Import String List Arith Lia ZArith Bool Permutation Ring.
From Verif Require Import Base DMIndex CRing Layout Kernel RTDK RTDNd.
Import ListNotations.
Open Scope nat_scope.
Local Notation length := List.length.

Section Band.
Variable K : CRing.
Local Notation C := (Cx K).
Local Open Scope rng_scope.
Add Ring KrBand : (rth K).
Add Ring CrBand : (rth (Cx K)).
Variables (L : Lay) (nl : nat) (T : nat -> nat -> nat -> C).
Local Notation lds := (leads nl).

(** ** Specification *)
(** the tunnelling operators of one lead and their adjoints anticommute to a number in the space of the considered states *)
Definition anticommute (Gam : nat -> C) : Prop := forall r c a b, (r < nl)%nat -> (0 <= c)%Z -> In a (states L c) -> In b (states L c) ->
  rsum (fun x => T r x a * conj (T r x b)) (states L (c + 1)) + rsum (fun x => conj (T r a x) * T r b x) (states L (c - 1)) =
  if a =? b then Gam r else 0.
(** matrix elements as they enter the products *)
Definition amp (z : C) : Prop := exists r c c' a b, (r < nl)%nat /\ In a (states L c) /\ In b (states L c') /\ (z = T r a b \/ z = conj (T r a b)).
Definition prod4 (t : C) : Prop := exists x y z w, amp x /\ amp y /\ amp z /\ amp w /\ t = x * y * z * w.
(** the cutoffs drop only products that vanish *)
Definition cut_exact (is0 lt2 gt3 : C -> bool) : Prop :=
  (forall x, amp x -> is0 x = true -> x = 0) /\ (forall x y, amp x -> amp y -> lt2 (x * y) = true -> x * y = 0) /\
  (forall t, prod4 t -> gt3 t = false -> t = 0).
Definition keld (p : Z) : C := if (p =? 1)%Z then 1 else - (1).
(** two tables of direct integrals that differ by a term that depends on the leads and on the first and the last energy only *)
Definition shifted (imgt3 : C -> bool) (G : nat -> nat -> K -> K -> C) (intD intD' : Z -> Z -> K -> K -> K -> nat -> nat -> bool -> C) : Prop :=
  forall p eta E1 E2 E3 r r' t, (p = 1 \/ p = -1)%Z -> (r < nl)%nat -> (r' < nl)%nat -> prod4 t ->
    intD' p eta E1 E2 E3 r r' (imgt3 t) = intD p eta E1 E2 E3 r r' (imgt3 t) + keld p * G r r' E1 E3.

(** ** Second-order kernel *)
Section Second.
Variables (E : nat -> K) (pf : nat -> nat -> bool -> K).
Variables (intD intD' intX intX' : Z -> Z -> K -> K -> K -> nat -> nat -> bool -> C) (is0 lt2 gt3 imgt3 : C -> bool).
Variables (Gam : nat -> C) (G : nat -> nat -> K -> K -> C).
Hypotheses (ND : forall c, NoDup (states L c)) (AC : anticommute Gam) (CE : cut_exact is0 lt2 gt3) (HD : shifted imgt3 G intD intD').
Hypothesis HX : forall p eta E1 E2 E3 r r' t, (r < nl)%nat -> (r' < nl)%nat -> prod4 t -> intX' p eta E1 E2 E3 r r' (imgt3 t) = intX p eta E1 E2 E3 r r' (imgt3 t).

(** weight of an insertion at element [x] of the kernel *)
Definition at3 (x y : nat * (Z * Z)) : K := if RTDK.eq3 x y then 1 else 0.
Definition wt (x : nat * (Z * Z)) (r : nat) (i0 i1 : Z) (a3 : nat) (c3 : Z) (a4 : nat) (c4 : Z) : K :=
  let i3 := ind0 L a3 a3 c3 in let i4 := ind0 L a4 a4 c4 in
  (1 + 1) * (at3 x (r, (i4, i0)) - at3 x (r, (i3, i0)) + at3 x (r, (i4, i1)) - at3 x (r, (i3, i1))).
Definition val (x : nat * (Z * Z)) (c : call2 K) : K :=
  rsum (fun u => if RTDK.eq3 x (fst u) then snd u else 0) (add2 K L c).
Lemma val_wt : forall x r f i0 i1 a3 c3 a4 c4, val x (Add2 K r f i0 i1 a3 c3 a4 c4) = f * wt x r i0 i1 a3 c3 a4 c4.
Proof.
  intros. unfold val, add2, wt, at3. cbn [rsum fst snd].
  repeat match goal with |- context [RTDK.eq3 ?a ?b] => destruct (RTDK.eq3 a b) end; ring.
Qed.

Lemma insD_val : forall x p eta E1 E2 E3 r r' t i0 i1 a3 c3 a4 c4, (p = 1 \/ p = -1)%Z -> (r < nl)%nat -> (r' < nl)%nat -> prod4 t ->
  rsum (val x) (insD K intD' gt3 imgt3 p eta E1 E2 E3 r r' t i0 i1 a3 c3 a4 c4) =
  rsum (val x) (insD K intD gt3 imgt3 p eta E1 E2 E3 r r' t i0 i1 a3 c3 a4 c4) +
  re (t * (keld p * G r r' E1 E3)) * wt x r i0 i1 a3 c3 a4 c4.
Proof.
  intros x p eta E1 E2 E3 r r' t i0 i1 a3 c3 a4 c4 Hp Hr Hr' Ht. unfold insD. destruct (gt3 t) eqn:g.
  - cbn [rsum]. rewrite !val_wt, HD by auto.
    replace (t * (intD p eta E1 E2 E3 r r' (imgt3 t) + keld p * G r r' E1 E3))
      with (t * intD p eta E1 E2 E3 r r' (imgt3 t) + t * (keld p * G r r' E1 E3)) by ring.
    rewrite re_add. ring.
  - destruct CE as (_ & _ & C3). rewrite (C3 t Ht g). cbn [rsum]. rewrite re_mul.
    change (re (0 : C)) with (0 : K). change (im (0 : C)) with (0 : K). ring.
Qed.
Lemma insX_val : forall x p eta E1 E2 E3 r r' t i0 i1 a3 c3 a4 c4, (r < nl)%nat -> (r' < nl)%nat -> prod4 t ->
  rsum (val x) (insX K intX' gt3 imgt3 p eta E1 E2 E3 r r' t i0 i1 a3 c3 a4 c4) =
  rsum (val x) (insX K intX gt3 imgt3 p eta E1 E2 E3 r r' t i0 i1 a3 c3 a4 c4).
Proof. intros. unfold insX. now rewrite HX by auto. Qed.

Lemma amp_T : forall r c c' a b, (r < nl)%nat -> In a (states L c) -> In b (states L c') -> amp (T r a b).
Proof. intros r c c' a b. exists r, c, c', a, b. auto. Qed.
Lemma amp_cT : forall r c c' a b, (r < nl)%nat -> In a (states L c) -> In b (states L c') -> amp (conj (T r a b)).
Proof. intros r c c' a b. exists r, c, c', a, b. auto. Qed.
Lemma p4 : forall x y z w, amp x -> amp y -> amp z -> amp w -> prod4 (x * y * z * w).
Proof. intros x y z w. exists x, y, z, w. auto. Qed.
Lemma lt2_zero : forall x y, amp x -> amp y -> lt2 (x * y) = true -> x * y = 0.
Proof. destruct CE as (_ & C2 & _). exact C2. Qed.
Hint Resolve amp_T amp_cT p4 : band.

(** sums over flattened loops *)
Lemma fm : forall A (f g : A -> list (call2 K)) (d : A -> K) x l,
  (forall a, In a l -> rsum (val x) (f a) = rsum (val x) (g a) + d a) ->
  rsum (val x) (flat_map f l) = rsum (val x) (flat_map g l) + rsum d l.
Proof. intros A f g d x l H. rewrite !rsum_flat_map, <- rsum_plus. now apply rsum_ext. Qed.
Lemma fm0 : forall A (f g : A -> list (call2 K)) x l,
  (forall a, In a l -> rsum (val x) (f a) = rsum (val x) (g a)) ->
  rsum (val x) (flat_map f l) = rsum (val x) (flat_map g l).
Proof. intros A f g x l H. rewrite !rsum_flat_map. now apply rsum_ext. Qed.

(** the term of one insertion *)
Definition term (p : Z) (E1 E3 : K) (r r' : nat) (t : C) (w : K) : K := re (t * (keld p * G r r' E1 E3)) * w.
Lemma term_0 : forall p E1 E3 r r' t w, t = 0 -> term p E1 E3 r r' t w = 0.
Proof.
  intros p E1 E3 r r' t w ->. unfold term. rewrite re_mul. change (re (0 : C)) with (0 : K). change (im (0 : C)) with (0 : K). ring.
Qed.
Lemma term_sum : forall A p E1 E3 r r' (t : A -> C) w l, rsum (fun a => term p E1 E3 r r' (t a) w) l = term p E1 E3 r r' (rsum t l) w.
Proof.
  intros. unfold term. induction l as [|a l IH]; cbn [rsum].
  - symmetry. apply (term_0 p E1 E3 r r'). reflexivity.
  - rewrite IH. replace ((t a + rsum t l) * (keld p * G r r' E1 E3))
      with (t a * (keld p * G r r' E1 E3) + rsum t l * (keld p * G r r' E1 E3)) by ring. rewrite re_add. ring.
Qed.
Lemma term_add : forall p E1 E3 r r' t t' w, term p E1 E3 r r' t w + term p E1 E3 r r' t' w = term p E1 E3 r r' (t + t') w.
Proof.
  intros. unfold term. replace ((t + t') * (keld p * G r r' E1 E3))
      with (t * (keld p * G r r' E1 E3) + t' * (keld p * G r r' E1 E3)) by ring. rewrite re_add. ring.
Qed.
Lemma term_opp : forall E1 E3 r r' t w, term 1 E1 E3 r r' t w + term (-1) E1 E3 r r' t w = 0.
Proof.
  intros. unfold term, keld. cbn [Z.eqb Pos.eqb].
  replace (t * (- (1) * G r r' E1 E3)) with (- (t * (1 * G r r' E1 E3))) by ring.
  generalize (t * (1 * G r r' E1 E3)). intros z. change (re (- z)) with (- re z). ring.
Qed.

Lemma split2 : forall d1 d2 A1 A1' A2 A2' d : K, A1' = A1 + d1 -> A2' = A2 + d2 -> d = d1 + d2 -> A1' + A2' = A1 + A2 + d.
Proof. intros d1 d2 A1 A1' A2 A2' d -> -> ->. ring. Qed.
Lemma split4 : forall d1 d2 d3 d4 A1 A1' A2 A2' A3 A3' A4 A4' d : K, A1' = A1 + d1 -> A2' = A2 + d2 -> A3' = A3 + d3 -> A4' = A4 + d4 ->
  d = d1 + d2 + d3 + d4 -> A1' + (A2' + (A3' + A4')) = A1 + (A2 + (A3 + A4)) + d.
Proof. intros d1 d2 d3 d4 A1 A1' A2 A2' A3 A3' A4 A4' d -> -> -> -> ->. ring. Qed.
Lemma fmz : forall A (f g : A -> list (call2 K)) x l,
  (forall a, In a l -> rsum (val x) (f a) = rsum (val x) (g a)) ->
  rsum (val x) (flat_map f l) = rsum (val x) (flat_map g l) + 0.
Proof. intros. rewrite (fm0 _ f g) by auto. ring. Qed.
Lemma cdl : forall x y z : C, x * (y + z) = x * y + x * z.
Proof. intros. ring. Qed.
Ltac dropped l2 := apply lt2_zero in l2; [|now eauto with band|now eauto with band]; cbn [rsum];
   rewrite !(rsum_0 K) by (intros; apply term_0; rewrite l2; ring); ring.
Ltac insDX D := intros; unfold D; rewrite !(rsum_app K), insD_val, insX_val by eauto 8 with band; unfold term; ring.
Ltac insDo D := intros; unfold D; rewrite insD_val by eauto 8 with band; reflexivity.
Ltac insXo := intros; apply insX_val; eauto 8 with band.

Lemma col2_band : forall x a0 q, (0 <= q)%Z -> In a0 (states L q) ->
  rsum (val x) (col2 K L nl E T intD' intX' is0 lt2 gt3 imgt3 a0 q) = rsum (val x) (col2 K L nl E T intD intX is0 lt2 gt3 imgt3 a0 q).
Proof.
  intros x a0 q Hq Ha0. unfold col2. cbv zeta.
  apply fm0. intros (r0, r1) Hr. apply in_prod_iff in Hr. destruct Hr as (Hr0 & Hr1). apply in_seq in Hr0. apply in_seq in Hr1.
  assert (B0 : (r0 < nl)%nat) by lia. assert (B1 : (r1 < nl)%nat) by lia. clear Hr0 Hr1. apply fm0. intros a1 Ha1.
  destruct (is0 (T r0 a1 a0)) eqn:z; auto.
  set (i0 := ind0 L a0 a0 q). set (i1 := ind0 L a1 a1 (q + 1)). set (E1 := E a1 - E a0). set (t := T r0 a1 a0).
  assert (At : amp t) by (unfold t; eauto with band).
  rewrite !(rsum_app K).
  set (D1 := fun a2 a3 => term 1 E1 (E a3 - E a0) r0 r1 (t * T r1 a2 a1 * conj (T r1 a2 a3) * conj (T r0 a3 a0)) (wt x r0 i0 i1 a3 (q + 1) a0 q)).
  set (D2 := fun a2 a3 => term 1 E1 (E a2 - E a3) r0 r1 (t * T r1 a2 a1 * conj (T r1 a3 a0) * conj (T r0 a2 a3)) (wt x r0 i0 i1 a2 (q + 2) a3 (q + 1))).
  set (D3 := fun a2 a3 => term (-1) E1 (E a3 - E a2) r0 r1 (t * T r1 a0 a2 * conj (T r1 a1 a3) * conj (T r0 a3 a2)) (wt x r0 i0 i1 a3 q a2 (q - 1))).
  set (D4 := fun a2 a3 => term (-1) E1 (E a1 - E a3) r0 r1 (t * T r1 a0 a2 * conj (T r1 a3 a2) * conj (T r0 a1 a3)) (wt x r0 i0 i1 a1 (q + 1) a3 q)).
  set (D5 := fun a2 a3 => term 1 E1 (E a3 - E a0) r0 r1 (t * conj (T r1 a1 a2) * T r1 a3 a2 * conj (T r0 a3 a0)) (wt x r0 i0 i1 a3 (q + 1) a0 q)).
  set (D6 := fun a2 a3 => term 1 E1 (E a2 - E a3) r0 r1 (t * conj (T r1 a1 a2) * T r1 a0 a3 * conj (T r0 a2 a3)) (wt x r0 i0 i1 a2 q a3 (q - 1))).
  set (D7 := fun a2 a3 => term (-1) E1 (E a3 - E a2) r0 r1 (t * conj (T r1 a2 a0) * T r1 a3 a1 * conj (T r0 a3 a2)) (wt x r0 i0 i1 a3 (q + 2) a2 (q + 1))).
  set (D8 := fun a2 a3 => term (-1) E1 (E a1 - E a3) r0 r1 (t * conj (T r1 a2 a0) * T r1 a2 a3 * conj (T r0 a1 a3)) (wt x r0 i0 i1 a1 (q + 1) a3 q)).
  match goal with |- ?l = ?r => enough (H : l = r + 0) by (rewrite H; ring) end.
  apply (split4 (rsum (fun a2 => rsum (D1 a2) (states L (q + 1)) + rsum (D2 a2) (states L (q + 1))) (states L (q + 2)))
                (rsum (fun a2 => rsum (D3 a2) (states L q) + rsum (D4 a2) (states L q)) (states L (q - 1)))
                (rsum (fun a2 => rsum (D5 a2) (states L (q + 1)) + rsum (D6 a2) (states L (q - 1))) (states L q))
                (rsum (fun a2 => rsum (D7 a2) (states L (q + 2)) + rsum (D8 a2) (states L q)) (states L (q + 1)))).
  - apply fm. intros a2 Ha2. destruct (lt2 (t * T r1 a2 a1)) eqn:l2; [unfold D1, D2; dropped l2|]. rewrite !(rsum_app K).
    eapply split2; [apply (fm _ _ _ (D1 a2)); insDX D1|apply (fm _ _ _ (D2 a2)); insDX D2|ring].
  - apply fm. intros a2 Ha2. destruct (lt2 (t * T r1 a0 a2)) eqn:l2; [unfold D3, D4; dropped l2|]. rewrite !(rsum_app K).
    eapply split2; [apply (fm _ _ _ (D3 a2)); insDX D3|apply (fm _ _ _ (D4 a2)); insDX D4|ring].
  - apply fm. intros a2 Ha2. destruct (lt2 (t * conj (T r1 a1 a2))) eqn:l2; [unfold D5, D6; dropped l2|]. rewrite !(rsum_app K).
    eapply split4; [apply (fm _ _ _ (D5 a2)); insDo D5|apply fmz; insXo|apply (fm _ _ _ (D6 a2)); insDo D6|apply fmz; insXo|ring].
  - apply fm. intros a2 Ha2. rewrite !(rsum_app K).
    eapply split4; [apply (fm _ _ _ (D7 a2)); insDo D7|apply fmz; insXo|apply (fm _ _ _ (D8 a2)); insDo D8|apply fmz; insXo|ring].
  - rewrite !(rsum_plus K).
    assert (X27 : rsum (fun a2 => rsum (D2 a2) (states L (q + 1))) (states L (q + 2)) +
                  rsum (fun a2 => rsum (D7 a2) (states L (q + 2))) (states L (q + 1)) = 0).
    { rewrite (rsum_swap K _ _ D7), <- (rsum_plus K). apply (rsum_0 K). intros a2 _. rewrite <- (rsum_plus K). apply (rsum_0 K). intros a3 _.
      unfold D2, D7. rewrite <- (term_opp E1 (E a2 - E a3) r0 r1 (t * T r1 a2 a1 * conj (T r1 a3 a0) * conj (T r0 a2 a3))
        (wt x r0 i0 i1 a2 (q + 2) a3 (q + 1))). f_equal. f_equal. ring. }
    assert (X36 : rsum (fun a2 => rsum (D3 a2) (states L q)) (states L (q - 1)) +
                  rsum (fun a2 => rsum (D6 a2) (states L (q - 1))) (states L q) = 0).
    { rewrite (rsum_swap K _ _ D6), <- (rsum_plus K). apply (rsum_0 K). intros a2 _. rewrite <- (rsum_plus K). apply (rsum_0 K). intros a3 _.
      unfold D3, D6. rewrite <- (term_opp E1 (E a3 - E a2) r0 r1 (t * conj (T r1 a1 a3) * T r1 a0 a2 * conj (T r0 a3 a2))
        (wt x r0 i0 i1 a3 q a2 (q - 1))). rewrite (Radd_comm (rth K)). f_equal. f_equal. ring. }
    assert (X15 : rsum (fun a2 => rsum (D1 a2) (states L (q + 1))) (states L (q + 2)) +
                  rsum (fun a2 => rsum (D5 a2) (states L (q + 1))) (states L q) =
                  term 1 E1 E1 r0 r1 (t * conj t * Gam r1) (wt x r0 i0 i1 a1 (q + 1) a0 q)).
    { rewrite (rsum_swap K _ _ D1), (rsum_swap K _ _ D5), <- (rsum_plus K).
      rewrite (rsum_single K _ _ _ a1 (ND _) Ha1).
      - unfold D1, D5. rewrite !(term_sum _ 1), term_add. f_equal.
        pose proof (AC r1 (q + 1)%Z a1 a1 B1 ltac:(lia) Ha1 Ha1) as A. rewrite Nat.eqb_refl in A.
        replace (q + 1 + 1)%Z with (q + 2)%Z in A by lia. replace (q + 1 - 1)%Z with q in A by lia. rewrite <- A.
        match goal with |- ?l = ?r => transitivity (t * conj t * (rsum (fun x0 => T r1 x0 a1 * conj (T r1 x0 a1)) (states L (q + 2))) +
           t * conj t * rsum (fun x0 => conj (T r1 a1 x0) * T r1 a1 x0) (states L q)) end; [|ring].
        rewrite <- !(rsum_mul_l C). f_equal; apply (rsum_ext C); intros; fold t; ring.
      - intros a3 Ha3 Hne. unfold D1, D5. rewrite !(term_sum _ 1), term_add. apply term_0.
        pose proof (AC r1 (q + 1)%Z a1 a3 B1 ltac:(lia) Ha1 Ha3) as A. replace (a1 =? a3) with false in A by (symmetry; apply Nat.eqb_neq; auto).
        replace (q + 1 + 1)%Z with (q + 2)%Z in A by lia. replace (q + 1 - 1)%Z with q in A by lia.
        transitivity (t * conj (T r0 a3 a0) * (rsum (fun x0 => T r1 x0 a1 * conj (T r1 x0 a3)) (states L (q + 2)) +
           rsum (fun x0 => conj (T r1 a1 x0) * T r1 a3 x0) (states L q))); [|rewrite A; ring].
        rewrite cdl.
        rewrite <- !(rsum_mul_l C). f_equal; apply (rsum_ext C); intros; ring. }
    assert (X48 : rsum (fun a2 => rsum (D4 a2) (states L q)) (states L (q - 1)) +
                  rsum (fun a2 => rsum (D8 a2) (states L q)) (states L (q + 1)) =
                  term (-1) E1 E1 r0 r1 (t * conj t * Gam r1) (wt x r0 i0 i1 a1 (q + 1) a0 q)).
    { rewrite (rsum_swap K _ _ D4), (rsum_swap K _ _ D8), <- (rsum_plus K).
      rewrite (rsum_single K _ _ _ a0 (ND _) Ha0).
      - unfold D4, D8. rewrite !(term_sum _ (-1)), term_add. f_equal.
        pose proof (AC r1 q a0 a0 B1 Hq Ha0 Ha0) as A. rewrite Nat.eqb_refl in A. rewrite <- A.
        match goal with |- ?l = ?r => transitivity (t * conj t * (rsum (fun x0 => conj (T r1 a0 x0) * T r1 a0 x0) (states L (q - 1))) +
           t * conj t * rsum (fun x0 => T r1 x0 a0 * conj (T r1 x0 a0)) (states L (q + 1))) end; [|ring].
        rewrite <- !(rsum_mul_l C). f_equal; apply (rsum_ext C); intros; fold t; ring.
      - intros a3 Ha3 Hne. unfold D4, D8. rewrite !(term_sum _ (-1)), term_add. apply term_0.
        pose proof (AC r1 q a3 a0 B1 Hq Ha3 Ha0) as A. replace (a3 =? a0) with false in A by (symmetry; apply Nat.eqb_neq; auto).
        transitivity (t * conj (T r0 a1 a3) * (rsum (fun x0 => T r1 x0 a3 * conj (T r1 x0 a0)) (states L (q + 1)) +
           rsum (fun x0 => conj (T r1 a3 x0) * T r1 a0 x0) (states L (q - 1)))); [|rewrite A; ring].
        rewrite cdl.
        rewrite <- !(rsum_mul_l C). rewrite (Radd_comm (rth C)). f_equal; apply (rsum_ext C); intros; ring. }
    transitivity ((term 1 E1 E1 r0 r1 (t * conj t * Gam r1) (wt x r0 i0 i1 a1 (q + 1) a0 q) +
                   term (-1) E1 E1 r0 r1 (t * conj t * Gam r1) (wt x r0 i0 i1 a1 (q + 1) a0 q)) + 0 + 0).
    { rewrite term_opp. ring. }
    rewrite <- X15, <- X48. rewrite <- X27 at 1. rewrite <- X36. ring.
Qed.

Theorem C66_second_order : forall x,
  wdd0 K L nl E T pf intD' intX' is0 lt2 gt3 imgt3 x = wdd0 K L nl E T pf intD intX is0 lt2 gt3 imgt3 x.
Proof.
  intros x. unfold wdd0. rewrite !run_updates_sum. f_equal. unfold each_state. rewrite !(rsum_flat_map K). apply (rsum_ext K). intros c Hc.
  rewrite !(rsum_flat_map K). apply (rsum_ext K). intros b Hb. destruct (is_unique L b b c); auto.
  rewrite !(rsum_app K). f_equal. rewrite !(rsum_flat_map K). apply (col2_band x b c); auto.
  unfold charges in Hc. apply in_map_iff in Hc. destruct Hc as (k & <- & _). lia.
Qed.
End Second.

(** ** Off-diagonal corrections *)
Section Corrections.
Variables (E : nat -> K) (pi : K) (F Fm ph ph' : nat -> K -> K) (kap : nat -> K) (Gam : nat -> C).
Hypotheses (ND : forall c, NoDup (states L c)) (AC : anticommute Gam).
(** the amplitudes of every lead are shifted by a number *)
Hypothesis HP : forall l x, ph' l x = ph l x + kap l.
Lemma dphi_band : forall s l x1 x2, dphi K ph' s l x1 x2 = dphi K ph s l x1 x2.
Proof. intros. unfold dphi. rewrite !HP. ring. Qed.
(** an update of ReWdn and ImWdn as a complex number *)
Definition cv (v : K * K) : C := mkC (fst v) (snd v).
Definition V (x : nat * (Z * Z)) (e : dn_el K) : C := if RTDK.eq3 x (fst e) then cv (snd e) else 0.
Definition W (x y : nat * (Z * Z)) : C := if RTDK.eq3 x y then 1 else 0.
Lemma V_W : forall x e, V x e = W x (fst e) * cv (snd e).
Proof. intros. unfold V, W. destruct (RTDK.eq3 x (fst e)); ring. Qed.
Lemma ext_fm : forall A (f g : A -> list (dn_el K)) x l, (forall a, In a l -> rsum (V x) (f a) = rsum (V x) (g a)) ->
  rsum (V x) (flat_map f l) = rsum (V x) (flat_map g l).
Proof. intros. rewrite !(rsum_flat_map C). now apply (rsum_ext C). Qed.
Lemma ext_map : forall A (f g : A -> dn_el K) x l, (forall a, In a l -> f a = g a) ->
  rsum (V x) (map f l) = rsum (V x) (map g l).
Proof. intros. f_equal. now apply map_ext_in. Qed.

Lemma re_sub' : forall a b : C, re (a - b) = re a - re b.
Proof. reflexivity. Qed.
Lemma im_sub' : forall a b : C, im (a - b) = im a - im b.
Proof. reflexivity. Qed.
Definition kk (l : nat) : C := Ci K * ofR (kap l).
Lemma s1p : forall t f l y, cv (stay1 K pi t f (1 * ph' l y)) = cv (stay1 K pi t f (1 * ph l y)) + kk l * t.
Proof. intros. rewrite HP. unfold cv, stay1, kk. apply cplx_eq; rewrite ?re_add, ?im_add, ?re_sub', ?im_sub', ?re_mul, ?im_mul; unfold Ci, ofR; cbn [re im fst snd]; rewrite ?re_mul, ?im_mul; cbn [re im]; ring. Qed.
Lemma s1m : forall t f l y, cv (stay1 K pi t f (- (1) * ph' l y)) = cv (stay1 K pi t f (- (1) * ph l y)) - kk l * t.
Proof. intros. rewrite HP. unfold cv, stay1, kk. apply cplx_eq; rewrite ?re_add, ?im_add, ?re_sub', ?im_sub', ?re_mul, ?im_mul; unfold Ci, ofR; cbn [re im fst snd]; rewrite ?re_mul, ?im_mul; cbn [re im]; ring. Qed.
Lemma s2p : forall t f l y, cv (stay2 K pi t f (1 * ph' l y)) = cv (stay2 K pi t f (1 * ph l y)) - kk l * t.
Proof. intros. rewrite HP. unfold cv, stay2, kk. apply cplx_eq; rewrite ?re_add, ?im_add, ?re_sub', ?im_sub', ?re_mul, ?im_mul; unfold Ci, ofR; cbn [re im fst snd]; rewrite ?re_mul, ?im_mul; cbn [re im]; ring. Qed.
Lemma s2m : forall t f l y, cv (stay2 K pi t f (- (1) * ph' l y)) = cv (stay2 K pi t f (- (1) * ph l y)) + kk l * t.
Proof. intros. rewrite HP. unfold cv, stay2, kk. apply cplx_eq; rewrite ?re_add, ?im_add, ?re_sub', ?im_sub', ?re_mul, ?im_mul; unfold Ci, ofR; cbn [re im fst snd]; rewrite ?re_mul, ?im_mul; cbn [re im]; ring. Qed.

Section Chunk.
Variables (x : nat * (Z * Z)) (c : Z) (e1 e2 top bottom : bool) (ix : nat -> nat * (Z * Z)) (a b a' b' : nat).
Variables (f1 f2 g1 g2 : nat -> nat -> K) (y1 y2 z1 z2 : nat -> K).
Definition up (ph : nat -> K -> K) : list (dn_el K) :=
  if top then [] else
  flat_map (fun u =>
    (if e1 then map (fun l => (ix l, stay1 K pi (T l u a * conj (T l u b)) (f1 l u) (1 * ph l (y1 u)))) lds else []) ++
    (if e2 then map (fun l => (ix l, stay2 K pi (T l u a' * conj (T l u b')) (f2 l u) (1 * ph l (y2 u)))) lds else [])) (states L (c + 1)).
Definition down (ph : nat -> K -> K) : list (dn_el K) :=
  if bottom then [] else
  flat_map (fun u =>
    (if e1 then map (fun l => (ix l, stay2 K pi (T l b u * conj (T l a u)) (g1 l u) (- (1) * ph l (z1 u)))) lds else []) ++
    (if e2 then map (fun l => (ix l, stay1 K pi (T l b' u * conj (T l a' u)) (g2 l u) (- (1) * ph l (z2 u)))) lds else [])) (states L (c - 1)).
Hypotheses (Hc : (0 <= c)%Z) (Ha : In a (states L c)) (Hb : In b (states L c)) (Ha' : In a' (states L c)) (Hb' : In b' (states L c)).
Hypotheses (N1 : e1 = true -> a <> b) (N2 : e2 = true -> a' <> b').
Hypotheses (Ht : top = true -> states L (c + 1) = []) (Hbt : bottom = true -> states L (c - 1) = []).
Definition d1 : C := if e1 then 1 else 0.
Definition d2 : C := if e2 then 1 else 0.
Lemma ifmap : forall (e : bool) (v : nat -> K * K),
  rsum (V x) (if e then map (fun l => (ix l, v l)) lds else []) = (if e then 1 else 0) * rsum (fun l => W x (ix l) * cv (v l)) lds.
Proof.
  intros e v. destruct e; cbn [rsum]; [|ring]. rewrite (rsum_map C). replace (1 * _) with (rsum (fun l => W x (ix l) * cv (v l)) lds) by ring.
  apply (rsum_ext C). intros l _. apply V_W.
Qed.
Lemma sh : forall (v v' : nat -> K * K) (d : nat -> C), (forall l, cv (v' l) = cv (v l) + d l) ->
  rsum (fun l => W x (ix l) * cv (v' l)) lds = rsum (fun l => W x (ix l) * cv (v l)) lds + rsum (fun l => W x (ix l) * d l) lds.
Proof. intros v v' d H. rewrite <- (rsum_plus C). apply (rsum_ext C). intros l _. rewrite H. ring. Qed.
Lemma lin : forall (u u' : nat -> C) (al be : C), rsum (fun l => W x (ix l) * (kk l * (al * u l - be * u' l))) lds =
  al * rsum (fun l => W x (ix l) * (kk l * u l)) lds - be * rsum (fun l => W x (ix l) * (kk l * u' l)) lds.
Proof. intros. rewrite <- !(rsum_mul_l C), <- (rsum_minus C). apply (rsum_ext C). intros. ring. Qed.
Lemma out : forall (t t' : nat -> nat -> C) S,
  rsum (fun u => rsum (fun l => W x (ix l) * (kk l * (d1 * t l u - d2 * t' l u))) lds) S =
  rsum (fun l => W x (ix l) * (kk l * (d1 * rsum (t l) S - d2 * rsum (t' l) S))) lds.
Proof.
  intros. rewrite (rsum_swap C). apply (rsum_ext C). intros l _. rewrite !(rsum_mul_l C), (rsum_minus C), !(rsum_mul_l C). reflexivity.
Qed.
Lemma opp_sum : forall (t : nat -> C), rsum (fun l => W x (ix l) * - (kk l * t l)) lds = - rsum (fun l => W x (ix l) * (kk l * t l)) lds.
Proof. intros. rewrite <- (rsum_opp C). apply (rsum_ext C). intros. ring. Qed.
Lemma up_band : rsum (V x) (up ph') = rsum (V x) (up ph) +
  rsum (fun l => W x (ix l) * (kk l * (d1 * rsum (fun u => T l u a * conj (T l u b)) (states L (c + 1)) -
                                     d2 * rsum (fun u => T l u a' * conj (T l u b')) (states L (c + 1))))) lds.
Proof.
  unfold up. destruct top eqn:tp.
  { rewrite Ht by auto. cbn [rsum]. rewrite (rsum_0 C _ _ lds); [ring|]. intros. ring. }
  rewrite <- (out (fun l u => T l u a * conj (T l u b)) (fun l u => T l u a' * conj (T l u b'))).
  rewrite !(rsum_flat_map C), <- (rsum_plus C). apply (rsum_ext C). intros u _. rewrite !(rsum_app C), !ifmap, lin. fold d1 d2.
  rewrite (sh (fun l => stay1 K pi (T l u a * conj (T l u b)) (f1 l u) (1 * ph l (y1 u))) (fun l => stay1 K pi (T l u a * conj (T l u b)) (f1 l u) (1 * ph' l (y1 u))) (fun l => kk l * (T l u a * conj (T l u b))))
    by (intros; apply s1p).
  rewrite (sh (fun l => stay2 K pi (T l u a' * conj (T l u b')) (f2 l u) (1 * ph l (y2 u))) (fun l => stay2 K pi (T l u a' * conj (T l u b')) (f2 l u) (1 * ph' l (y2 u))) (fun l => - (kk l * (T l u a' * conj (T l u b')))))
    by (intros; rewrite s2p; ring).
  rewrite (opp_sum (fun l => T l u a' * conj (T l u b'))). ring.
Qed.
Lemma down_band : rsum (V x) (down ph') = rsum (V x) (down ph) +
  rsum (fun l => W x (ix l) * (kk l * (d1 * rsum (fun u => T l b u * conj (T l a u)) (states L (c - 1)) -
                                     d2 * rsum (fun u => T l b' u * conj (T l a' u)) (states L (c - 1))))) lds.
Proof.
  unfold down. destruct bottom eqn:tp.
  { rewrite Hbt by auto. cbn [rsum]. rewrite (rsum_0 C _ _ lds); [ring|]. intros. ring. }
  rewrite <- (out (fun l u => T l b u * conj (T l a u)) (fun l u => T l b' u * conj (T l a' u))).
  rewrite !(rsum_flat_map C), <- (rsum_plus C). apply (rsum_ext C). intros u _. rewrite !(rsum_app C), !ifmap, lin. fold d1 d2.
  rewrite (sh (fun l => stay2 K pi (T l b u * conj (T l a u)) (g1 l u) (- (1) * ph l (z1 u))) (fun l => stay2 K pi (T l b u * conj (T l a u)) (g1 l u) (- (1) * ph' l (z1 u))) (fun l => kk l * (T l b u * conj (T l a u))))
    by (intros; apply s2m).
  rewrite (sh (fun l => stay1 K pi (T l b' u * conj (T l a' u)) (g2 l u) (- (1) * ph l (z2 u))) (fun l => stay1 K pi (T l b' u * conj (T l a' u)) (g2 l u) (- (1) * ph' l (z2 u))) (fun l => - (kk l * (T l b' u * conj (T l a' u)))))
    by (intros; rewrite s1m; ring).
  rewrite (opp_sum (fun l => T l b' u * conj (T l a' u))). ring.
Qed.
Lemma ac0 : forall (e : bool) l a b, (l < nl)%nat -> In a (states L c) -> In b (states L c) -> (e = true -> a <> b) ->
  (if e then 1 else 0) * (rsum (fun u => T l u a * conj (T l u b)) (states L (c + 1)) + rsum (fun u => T l b u * conj (T l a u)) (states L (c - 1))) = (0 : C).
Proof.
  intros e l p p' Hl Hp Hp' N. destruct e; [|ring]. pose proof (AC l c p p' Hl Hc Hp Hp') as A.
  replace (p =? p') with false in A by (symmetry; apply Nat.eqb_neq; auto).
  rewrite (rsum_ext C _ (fun u => conj (T l p u) * T l p' u) (fun u => T l p' u * conj (T l p u))) in A by (intros; ring). rewrite A. ring.
Qed.
Lemma chunk : rsum (V x) (up ph' ++ down ph') = rsum (V x) (up ph ++ down ph).
Proof.
  rewrite !(rsum_app C), up_band, down_band.
  match goal with |- ?A + ?B + (?D + ?F) = _ => enough (Z : B + F = 0) by
    (transitivity (A + D + (B + F)); [ring|rewrite Z; ring]) end.
  rewrite <- (rsum_plus C). apply (rsum_0 C). intros l Hl. apply in_seq in Hl.
  transitivity (W x (ix l) * (kk l *
    (d1 * (rsum (fun u => T l u a * conj (T l u b)) (states L (c + 1)) + rsum (fun u => T l b u * conj (T l a u)) (states L (c - 1))) -
     d2 * (rsum (fun u => T l u a' * conj (T l u b')) (states L (c + 1)) + rsum (fun u => T l b' u * conj (T l a' u)) (states L (c - 1)))))).
  { ring. }
  unfold d1, d2. rewrite !ac0 by (auto; lia). ring.
Qed.
End Chunk.

Hypotheses (Top : states L (Z.of_nat (ly_ncharge L)) = []) (Bottom : states L (-1) = []).
Lemma top_empty : forall c, (c =? Z.of_nat (ly_ncharge L) - 1)%Z = true -> states L (c + 1) = [].
Proof. intros c H. apply Z.eqb_eq in H. subst c. replace (Z.of_nat (ly_ncharge L) - 1 + 1)%Z with (Z.of_nat (ly_ncharge L)) by lia. exact Top. Qed.
Lemma bottom_empty : forall c, (c =? 0)%Z = true -> states L (c - 1) = [].
Proof. intros c H. apply Z.eqb_eq in H. subst c. exact Bottom. Qed.
Lemma charges_pos : forall c, In c (charges L) -> (0 <= c)%Z.
Proof. intros c Hc. unfold charges in Hc. apply in_map_iff in Hc. destruct Hc as (k & <- & _). lia. Qed.
Local Hint Resolve top_empty bottom_empty charges_pos : band.

Lemma dn_band : forall x a1 b1 c, In c (charges L) -> In a1 (states L c) -> In b1 (states L c) -> a1 <> b1 ->
  rsum (V x) (dn_col K L nl E T pi F Fm ph' a1 b1 c) = rsum (V x) (dn_col K L nl E T pi F Fm ph a1 b1 c).
Proof.
  intros x a1 b1 c Hc H1 H2 Hne. unfold dn_col. cbv zeta. rewrite !(rsum_app C). f_equal; [|f_equal].
  - destruct (c =? _)%Z; auto. apply ext_fm. intros a2 _. apply ext_map. intros l _. now rewrite dphi_band.
  - destruct (c =? _)%Z; auto. apply ext_fm. intros a2 _. apply ext_map. intros l _. now rewrite dphi_band.
  - apply ext_fm. intros a2 H3.
    refine (chunk x c (b1 =? a2) (a1 =? a2) (c =? Z.of_nat (ly_ncharge L) - 1)%Z (c =? 0)%Z _ a1 a2 a2 b1 _ _ _ _ _ _ _ _ _ _ _ _ _ _ _ _ _);
      eauto with band; intros e; apply Nat.eqb_eq in e; congruence.
Qed.
Lemma nd_band : forall x a1 c, In c (charges L) -> In a1 (states L c) ->
  rsum (V x) (nd_col K L nl E T pi F Fm ph' a1 c) = rsum (V x) (nd_col K L nl E T pi F Fm ph a1 c).
Proof.
  intros x a1 c Hc H1. unfold nd_col. cbv zeta. rewrite !(rsum_app C). f_equal; [|f_equal].
  - destruct (c =? _)%Z; auto. apply ext_fm. intros a2 _. apply ext_fm. intros b2 _. destruct (a2 =? b2); auto.
    apply ext_map. intros l _. now rewrite dphi_band.
  - destruct (c =? _)%Z; auto. apply ext_fm. intros a2 _. apply ext_fm. intros b2 _. destruct (b2 =? a2); auto.
    apply ext_map. intros l _. now rewrite dphi_band.
  - apply ext_fm. intros a2 H2. apply ext_fm. intros b2 H3. destruct (Nat.eqb_spec a2 b2) as [e|Hne]; auto.
    refine (chunk x c (a1 =? b2) (a1 =? a2) (c =? Z.of_nat (ly_ncharge L) - 1)%Z (c =? 0)%Z _ a1 a2 b2 a1 _ _ _ _ _ _ _ _ _ _ _ _ _ _ _ _ _);
      eauto with band; intros e; apply Nat.eqb_eq in e; congruence.
Qed.

Lemma table : forall us us' x, rsum (V x) us' = rsum (V x) us ->
  run_updates RTDK.eq3 (map (fun e : dn_el K => (fst e, fst (snd e))) us') zeros x = run_updates RTDK.eq3 (map (fun e : dn_el K => (fst e, fst (snd e))) us) zeros x /\
  run_updates RTDK.eq3 (map (fun e : dn_el K => (fst e, snd (snd e))) us') zeros x = run_updates RTDK.eq3 (map (fun e : dn_el K => (fst e, snd (snd e))) us) zeros x.
Proof.
  intros us us' x H.
  assert (R1 : forall us, run_updates RTDK.eq3 (map (fun e : dn_el K => (fst e, fst (snd e))) us) zeros x = re (rsum (V x) us)).
  { intros. rewrite run_updates_sum, (rsum_map K), (rsum_re K). unfold zeros. match goal with |- 0 + ?s = _ => replace (0 + s) with s by ring end.
    apply (rsum_ext K). intros e _. unfold V. cbn [fst snd]. destruct (RTDK.eq3 x (fst e)); reflexivity. }
  assert (R2 : forall us, run_updates RTDK.eq3 (map (fun e : dn_el K => (fst e, snd (snd e))) us) zeros x = im (rsum (V x) us)).
  { intros. rewrite run_updates_sum, (rsum_map K), (rsum_im K). unfold zeros. match goal with |- 0 + ?s = _ => replace (0 + s) with s by ring end.
    apply (rsum_ext K). intros e _. unfold V. cbn [fst snd]. destruct (RTDK.eq3 x (fst e)); reflexivity. }
  rewrite !R1, !R2, H. auto.
Qed.
Lemma dn_tables : forall x, re_wdn K L nl E T pi F Fm ph' x = re_wdn K L nl E T pi F Fm ph x /\
  im_wdn K L nl E T pi F Fm ph' x = im_wdn K L nl E T pi F Fm ph x.
Proof.
  intros x. apply table. unfold dn_all. apply ext_fm. intros c Hc. apply ext_fm. intros b Hb. apply ext_fm. intros b' Hb'.
  destruct (Nat.eqb_spec b b'); auto. now apply dn_band.
Qed.
Lemma nd_tables : forall x, re_wnd K L nl E T pi F Fm ph' x = re_wnd K L nl E T pi F Fm ph x /\
  im_wnd K L nl E T pi F Fm ph' x = im_wnd K L nl E T pi F Fm ph x.
Proof.
  intros x. apply table. unfold nd_all, each_state. apply ext_fm. intros c Hc. apply ext_fm. intros b Hb.
  destruct (is_unique L b b c); auto. now apply nd_band.
Qed.
Theorem C66_corrections : forall inv x, corr K L nl E T pi F Fm ph' inv x = corr K L nl E T pi F Fm ph inv x.
Proof.
  intros inv [l [i j]]. unfold corr, wcorr.
  assert (S1 : forall m, snd_im K L nl E T pi F Fm ph' m j = snd_im K L nl E T pi F Fm ph m j).
  { intros m. unfold snd_im. apply (rsum_ext K). intros l' _. apply (rsum_ext K). intros i' _. apply nd_tables. }
  assert (S2 : forall m, snd_re K L nl E T pi F Fm ph' m j = snd_re K L nl E T pi F Fm ph m j).
  { intros m. unfold snd_re. apply (rsum_ext K). intros l' _. apply (rsum_ext K). intros i' _. apply nd_tables. }
  f_equal; apply (rsum_ext K); intros m _; rewrite ?S1, ?S2; f_equal; apply (rsum_ext K); intros k _; f_equal; unfold col_at; f_equal; apply dn_tables.
Qed.
End Corrections.

(** ** Kernel and currents *)
Section All.
Variables (ns : nat) (E : nat -> K) (tl : nat -> nat -> C) (pf : nat -> nat -> bool -> K) (pi h : K).
Variables (F Fm ph ph' phm phm' : nat -> K -> K) (inv : K -> K).
Variables (intD intD' intX intX' : Z -> Z -> K -> K -> K -> nat -> nat -> bool -> C) (is0 lt2 gt3 imgt3 imgt : C -> bool).
Variables (Gam : nat -> C) (G : nat -> nat -> K -> K -> C) (kap : nat -> K).
Hypotheses (ND : forall c, NoDup (states L c)) (Top : states L (Z.of_nat (ly_ncharge L)) = []) (Bottom : states L (-1) = []).
Hypotheses (AC : anticommute Gam) (CE : cut_exact is0 lt2 gt3) (HD : shifted imgt3 G intD intD').
Hypothesis HX : forall p eta E1 E2 E3 r r' t, (r < nl)%nat -> (r' < nl)%nat -> prod4 t -> intX' p eta E1 E2 E3 r r' (imgt3 t) = intX p eta E1 E2 E3 r r' (imgt3 t).
Hypothesis HP : forall l x, ph' l x = ph l x + kap l.
Local Notation kern ph intD intX := (rtd_kern K L nl E T pf pi F Fm ph intD intX is0 lt2 gt3 imgt3 (lnn K L E inv) (snd_im K L nl E T pi F Fm ph) (snd_re K L nl E T pi F Fm ph)).
Local Notation wall ph intD intX := (wdd K L nl E T pf pi F Fm ph intD intX is0 lt2 gt3 imgt3 (lnn K L E inv) (snd_im K L nl E T pi F Fm ph) (snd_re K L nl E T pi F Fm ph)).
Local Notation curr ph intD intX := (rtd_current K L nl E T pf pi h F Fm ph intD intX is0 lt2 gt3 imgt3 (lnn K L E inv) (snd_im K L nl E T pi F Fm ph) (snd_re K L nl E T pi F Fm ph)).
Local Notation ecurr ph phm intD intX := (rtd_energy_current K L nl ns E T tl pf pi h F Fm ph phm intD intX is0 lt2 gt3 imgt3 imgt (lnn K L E inv)
  (snd_im K L nl E T pi F Fm ph) (snd_re K L nl E T pi F Fm ph)).
Lemma wall_band : forall off x, wall ph' intD' intX' off x = wall ph intD intX off x.
Proof.
  intros off x. unfold wdd. pose proof (C66_second_order E pf intD intD' intX intX' is0 lt2 gt3 imgt3 Gam G ND AC CE HD HX x) as S.
  pose proof (C66_corrections E pi F Fm ph ph' kap Gam AC HP Top Bottom inv x) as R. unfold corr in R.
  destruct off; congruence.
Qed.
Theorem C66_kernel : forall off ij, kern ph' intD' intX' off ij = kern ph intD intX off ij.
Proof.
  intros off ij. unfold rtd_kern. f_equal.
  - apply (rsum_ext K). intros l _. now apply (C66_second_order E pf intD intD' intX intX' is0 lt2 gt3 imgt3 Gam G).
  - destruct off; auto. apply (rsum_ext K). intros l _. exact (C66_corrections E pi F Fm ph ph' kap Gam AC HP Top Bottom inv (l, ij)).
Qed.
Lemma wdot_band : forall off phi l i, wdotv K L (wall ph' intD' intX' off) phi l i = wdotv K L (wall ph intD intX off) phi l i.
Proof. intros. unfold wdotv. apply (rsum_ext K). intros j _. now rewrite wall_band. Qed.
Lemma dotv_ext : forall v w w' n, (forall i, w' i = w i) -> dotv K v w' n = dotv K v w n.
Proof. intros. unfold dotv. destruct (_ =? _); auto. f_equal. apply (rsum_ext K). intros. now rewrite H. Qed.
Theorem C66_current : forall off phi l, curr ph' intD' intX' off phi l = curr ph intD intX off phi l.
Proof. intros. unfold rtd_current. f_equal. apply dotv_ext. intros. apply wdot_band. Qed.

(** energy currents: all band widths multiplied by the same number *)
Variable k0 : K.
Hypotheses (HPm : forall l x, phm' l x = phm l x + kap l) (HK : forall l, (l < nl)%nat -> kap l = k0).
Lemma erow_lin : forall tmp tmp' d x, (forall l a b, (l < nl)%nat -> tmp' l a b = tmp l a b + d l a b) ->
  run_updates RTDK.eq3 (each_state L (erow K L nl tmp')) zeros x =
  run_updates RTDK.eq3 (each_state L (erow K L nl tmp)) zeros x + run_updates RTDK.eq3 (each_state L (erow K L nl d)) zeros x.
Proof.
  intros tmp tmp' d x H. rewrite !run_updates_sum. unfold zeros.
  match goal with |- 0 + ?a = 0 + ?b + (0 + ?c) => enough (Z : a = b + c) by (rewrite Z; ring) end.
  unfold each_state. rewrite !(rsum_flat_map K), <- (rsum_plus K). apply (rsum_ext K). intros c _.
  rewrite !(rsum_flat_map K), <- (rsum_plus K). apply (rsum_ext K). intros b _.
  destruct (is_unique L b b c); cbn [rsum]; [|ring]. unfold erow. rewrite !(rsum_app K), !(rsum_flat_map K).
  match goal with |- ?A + ?B = ?A1 + ?B1 + (?A2 + ?B2) => enough (A = A1 + A2 /\ B = B1 + B2) as [-> ->] by ring end.
  split; rewrite <- (rsum_plus K); apply (rsum_ext K); intros a _; rewrite !(rsum_flat_map K), <- (rsum_plus K); apply (rsum_ext K); intros l Hl;
    apply in_seq in Hl; unfold set_dd; cbn [rsum fst snd]; rewrite H by lia; repeat destruct (RTDK.eq3 _ _); ring.
Qed.
Definition dk (l a b : nat) : K := re (gam1 K nl ns T tl l a b) * (k0 + k0) * pi.
Lemma temp1_band : forall l a b, (l < nl)%nat -> temp1 K nl ns E T tl pi ph' phm' l a b = temp1 K nl ns E T tl pi ph phm l a b + dk l a b.
Proof. intros l a b Hl. unfold temp1, dk. cbv zeta. rewrite HP, HPm, HK by auto. ring. Qed.
Lemma temp2_band : forall l a b, (l < nl)%nat -> temp2 K nl ns E T tl pi ph' phm' l a b = temp2 K nl ns E T tl pi ph phm l a b + dk l a b.
Proof.
  intros l a b Hl. unfold temp2, dk, gam1. cbv zeta. rewrite (rsum_re K).
  match goal with |- ?A * pi = ?B * pi + ?S * _ * pi => enough (Z : A = B + S * (k0 + k0)) by (rewrite Z; ring) end.
  rewrite <- (rsum_mul_r K), <- (rsum_plus K). apply (rsum_ext K). intros l' Hl'. unfold others in Hl'. apply filter_In in Hl'. destruct Hl' as (Hl' & _).
  apply in_seq in Hl'. rewrite HP, HPm, HK by lia. ring.
Qed.
Theorem C66_energy_current : forall off nmany phi l, ecurr ph' phm' intD' intX' off nmany phi l = ecurr ph phm intD intX off nmany phi l.
Proof.
  intros off nmany phi l. unfold rtd_energy_current.
  rewrite (dotv_ext _ (wdotv K L (wall ph intD intX off) phi l)) by (intros; apply wdot_band).
  destruct (dotv _ _ _ _); auto. f_equal. destruct (im_gamma _ _ _ _ _ _ _); auto. f_equal.
  set (dd := run_updates RTDK.eq3 (each_state L (erow K L nl dk)) zeros).
  assert (W1 : forall x, we1 K L nl ns E T tl pi ph' phm' x = we1 K L nl ns E T tl pi ph phm x + dd x).
  { intros x. apply erow_lin. intros. now apply temp1_band. }
  assert (W2 : forall x, we2 K L nl ns E T tl pi ph' phm' x = we2 K L nl ns E T tl pi ph phm x + dd x).
  { intros x. apply erow_lin. intros. now apply temp2_band. }
  assert (LIN : forall w w', (forall x, w' x = w x + dd x) -> rsum (fun i => wdotv K L w' phi l (Z.of_nat i)) (seq 0 (ly_npauli L)) =
    rsum (fun i => wdotv K L w phi l (Z.of_nat i)) (seq 0 (ly_npauli L)) + rsum (fun i => wdotv K L dd phi l (Z.of_nat i)) (seq 0 (ly_npauli L))).
  { intros w w' H. rewrite <- (rsum_plus K). apply (rsum_ext K). intros i _. unfold wdotv. rewrite <- (rsum_plus K). apply (rsum_ext K).
    intros j _. rewrite H. ring. }
  rewrite (LIN _ _ W1), (LIN _ _ W2). ring.
Qed.
End All.
End Band.
Print Assumptions C66_kernel.
Print Assumptions C66_current.
Print Assumptions C66_energy_current.
