(** The tunnelling operator of a lead squares to a number: sum_i |t_i|^2 over the levels. *)
From Coq Require Import String List Arith Lia Bool ZArith Permutation.
From Verif Require Import Base Bits Indexing IndexingProofs RemoveProofs PropIndexing CRing Fock Operators OperatorsProofs PropOperators.
Import ListNotations.
Open Scope nat_scope.
Local Notation length := List.length.

Section Square.
Variable K : CRing.
Local Notation C := (Cx K).
Add Ring Csq : (rth C).
Local Open Scope rng_scope.
Variables u v : nat -> C.
Definition wgt (i : nat) (b : bool) : C := if b then u i else v i.
Definition flip (i : nat) (s : list bool) : list bool := put i (negb (occ_at i s)) s.
(** u_i d_i^dagger + v_i d_i *)
Definition A (i : nat) (f : vec C) (s : list bool) : C := u i * cre C i f s + v i * ann C i f s.
Lemma A_flip : forall i f s, A i f s = wgt i (occ_at i s) * jw C i s * f (flip i s).
Proof. intros. unfold A, cre, ann, wgt, flip. destruct (occ_at i s); cbn [negb]; ring. Qed.
Lemma flip_length : forall i s, length (flip i s) = length s.
Proof. intros. apply put_length. Qed.
Lemma A_self : forall i f s, (i < length s)%nat -> A i (A i f) s = u i * v i * f s.
Proof.
  intros i f s Hi. rewrite !A_flip. unfold flip. rewrite occ_put_same, negb_involutive, put_put_same, put_self, jw_put_ge by auto.
  pose proof (jw_sq C i s) as Q. transitivity (wgt i (occ_at i s) * wgt i (negb (occ_at i s)) * (jw C i s * jw C i s) * f s); [ring|].
  rewrite Q. unfold wgt. destruct (occ_at i s); cbn [negb]; ring.
Qed.
Lemma A_other : forall i j f s, (i < length s)%nat -> (j < length s)%nat -> i <> j -> A i (A j f) s + A j (A i f) s = 0.
Proof.
  intros i j f s Hi Hj Hne. rewrite !A_flip. unfold flip. rewrite !occ_put_other by auto. rewrite (put_comm j i) by auto.
  pose proof (jw_pair C i j (negb (occ_at i s)) (negb (occ_at j s)) s Hi Hj Hne ltac:(now rewrite negb_involutive) ltac:(now rewrite negb_involutive)) as J.
  set (f' := f _). transitivity (wgt i (occ_at i s) * wgt j (occ_at j s) *
    (jw C i s * jw C j (put i (negb (occ_at i s)) s) + jw C j s * jw C i (put j (negb (occ_at j s)) s)) * f'); [ring|]. rewrite J. ring.
Qed.
Lemma A_sum : forall B (g : B -> vec C) l i s, A i (fun t => rsum (fun x => g x t) l) s = rsum (fun x => A i (g x) s) l.
Proof. intros. rewrite A_flip, <- (rsum_mul_l C). apply (rsum_ext C). intros. now rewrite A_flip. Qed.
Definition S_ (ls : list nat) (f : vec C) (s : list bool) : C := rsum (fun i => A i f s) ls.
Lemma S_square : forall ls f s, NoDup ls -> (forall i, In i ls -> (i < length s)%nat) ->
  S_ ls (S_ ls f) s = rsum (fun i => u i * v i) ls * f s.
Proof.
  intros ls f s ND HL.
  transitivity (rsum (fun i => rsum (fun j => A i (A j f) s) ls) ls).
  { unfold S_ at 1. apply (rsum_ext C). intros i _. apply (A_sum nat (fun j => A j f)). }
  induction ls as [|x r IH]; [cbn [rsum]; ring|]. inversion ND; subst. cbn [rsum].
  rewrite (rsum_plus C). rewrite IH by (auto; intros; apply HL; now right). rewrite A_self by (apply HL; now left).
  enough (Z : rsum (fun j => A x (A j f) s) r + rsum (fun i => A i (A x f) s) r = 0).
  { transitivity (u x * v x * f s + (rsum (fun j => A x (A j f) s) r + rsum (fun i => A i (A x f) s) r) + rsum (fun i => u i * v i) r * f s); [ring|].
    rewrite Z. ring. }
  rewrite <- (rsum_plus C). apply (rsum_0 C). intros j Hj. apply A_other; [apply HL; now left|apply HL; now right|]. intros ->. auto.
Qed.
End Square.

Section Matrix.
Variable K : CRing.
Local Notation C := (Cx K).
Add Ring Csq2 : (rth C).
Local Open Scope rng_scope.
Variables (n nleads : nat) (tleads : list ((nat * nat) * C)) (l : nat).
(** the amplitude of lead l and level i: the entries of tleads at (l, i) *)
Definition tau (i : nat) : C := rsum (fun e => let '((l', i'), t) := e in if (Nat.eqb l' l && Nat.eqb i' i)%bool then t else 0) tleads.
Definition gam : C := rsum (fun i => tau i * conj (tau i)) (seq 0 n).
End Matrix.

Section Built.
Variable K : CRing.
Local Notation C := (Cx K).
Add Ring Csq3 : (rth C).
Local Open Scope rng_scope.
Lemma tunnel_sum : forall n tleads l f s, (forall l i t, In ((l, i), t) tleads -> (i < n)%nat) ->
  tunnel_op K tleads l f s = S_ K (tau K tleads l) (fun i => conj (tau K tleads l i)) (seq 0 n) f s.
Proof.
  intros n tleads l f s H. unfold tunnel_op, S_, A. induction tleads as [|[[l' i'] t] r IH].
  - cbn [osum]. unfold ozero. symmetry. apply (rsum_0 C). intros i _. unfold tau. cbn [rsum]. rewrite conj_0. ring.
  - cbn [osum]. unfold oplus at 1. rewrite IH by (intros; eapply H; right; eauto).
    assert (Hi' : (i' < n)%nat) by (eapply H; left; eauto).
    transitivity (rsum (fun i => (if i =? i' then if Nat.eqb l' l then t * cre C i f s + conj t * ann C i f s else 0 else 0) +
      (tau K r l i * cre C i f s + conj (tau K r l i) * ann C i f s)) (seq 0 n)).
    { rewrite (rsum_plus C _ (fun i => if i =? i' then if Nat.eqb l' l then t * cre C i f s + conj t * ann C i f s else 0 else 0)).
      rewrite (rsum_if_nat C (fun i => if Nat.eqb l' l then t * cre C i f s + conj t * ann C i f s else 0) (seq 0 n) i')
        by (apply seq_NoDup || (apply in_seq; lia)). f_equal. destruct (Nat.eqb l' l); reflexivity. }
    apply (rsum_ext C). intros i _. unfold tau. cbn [rsum]. rewrite conj_add. rewrite (Nat.eqb_sym i i').
    destruct (Nat.eqb l' l), (Nat.eqb i' i); cbn [andb]; rewrite ?conj_0; ring.
Qed.

(** the matrix built by construct_Tba, all Fock states present *)
Theorem Tba_square : forall n name si nleads tleads Tba, reachable_si n name [] si ->
  (forall l i t, In ((l, i), t) tleads -> (l < nleads /\ i < n)%nat) -> construct_Tba K si nleads tleads zeros = Some Tba ->
  forall l k k', (k < si_nmany si)%nat -> (k' < si_nmany si)%nat ->
  rsum (fun x => Tba (l, k, x) * Tba (l, x, k')) (seq 0 (si_nmany si)) = if k =? k' then gam K n tleads l else 0.
Proof.
  intros n name si nleads tleads Tba RS HT E l k k' Hk Hk'. pose proof (reachable_correct _ _ _ _ RS) as RC.
  destruct (C13_tunnelling K n name [] si nleads tleads zeros RS HT) as (T & E' & H). rewrite E' in E. injection E as <-.
  destruct (gs_ex _ _ _ RC k Hk) as (s & Es & Ls). destruct (gs_ex _ _ _ RC k' Hk') as (s' & Es' & Ls').
  pose proof (tunnel_sum n tleads l) as TS. set (u := tau K tleads l) in *. set (v := fun i => conj (u i)) in *.
  assert (HTi : forall l i t, In ((l, i), t) tleads -> (i < n)%nat) by (intros; eapply HT; eauto).
  assert (M : forall x y sx sy, (x < si_nmany si)%nat -> (y < si_nmany si)%nat -> get_state si x = Some sx -> get_state si y = Some sy ->
     T (l, x, y) = S_ K u v (seq 0 n) (basis C sy) sx).
  { intros x y sx sy Hx Hy Ex Ey. rewrite (H l x y sx sy) by auto. unfold zeros, mel. rewrite TS by auto. unfold v. ring. }
  transitivity (S_ K u v (seq 0 n) (S_ K u v (seq 0 n) (basis C s')) s).
  - transitivity (rsum (fun x => rsum (fun i => wgt K u v i (occ_at i s) * jw C i s *
       (match get_state si x with Some sx => basis C sx (flip i s) * S_ K u v (seq 0 n) (basis C s') sx | None => 0 end)) (seq 0 n)) (seq 0 (si_nmany si))).
    + apply (rsum_ext C). intros x Hx. apply in_seq in Hx. destruct (gs_ex _ _ _ RC x ltac:(lia)) as (sx & Ex & Lx).
      rewrite (M k x s sx), (M x k' sx s') by (auto; lia). rewrite Ex. unfold S_ at 1. rewrite <- (rsum_mul_r C). apply (rsum_ext C).
      intros i _. rewrite A_flip. ring.
    + rewrite (rsum_swap C). unfold S_ at 2. apply (rsum_ext C). intros i Hi. apply in_seq in Hi. rewrite A_flip, (rsum_mul_l C). f_equal.
      assert (LF : length (flip i s) = n) by (rewrite flip_length; auto).
      destruct RC as (_ & R2 & _). destruct (R2 (flip i s) LF ltac:(simpl; auto)) as (y & _ & Hy & Ey).
      rewrite (rsum_single C _ _ _ y); [|apply seq_NoDup|apply in_seq; lia|].
      * rewrite Ey, basis_refl. ring.
      * intros z Hz Hne. apply in_seq in Hz. pose proof (reachable_correct _ _ _ _ RS) as RC'.
        destruct (gs_ex _ _ _ RC' z ltac:(lia)) as (sz & Ez & Lz). rewrite Ez, basis_neq; [ring|].
        intros <-. apply Hne. eapply (gs_inj _ _ _ RC'); eauto; lia.
  - rewrite S_square; [|apply seq_NoDup|intros i Hi; apply in_seq in Hi; lia]. fold (gam K n tleads l).
    destruct (Nat.eqb_spec k k') as [<-|Hne].
    + replace s' with s by congruence. rewrite basis_refl. unfold gam. fold u. unfold v. ring.
    + rewrite basis_neq; [ring|]. intros <-. apply Hne. eapply (gs_inj _ _ _ RC); eauto.
Qed.
End Built.
