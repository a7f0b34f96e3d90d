(** C54: with symmetry='spin' the Hamiltonian commutes with the total spin. *)
From Coq Require Import String List Arith Lia Bool ZArith Permutation.
From Verif Require Import Base Bits Indexing CRing Operators Fock OperatorsProofs PropOperators Params ParamsProofs PropParams PropLeads SpinFock
  SpinInvariant CohProofs SpinProofs PropSpin.
Import ListNotations.
Open Scope nat_scope.
Local Notation length := List.length.
Local Notation key4 := (nat * nat * nat * nat)%type.

Section Total.
Variable K : CRing.
Notation C := (Cx K).
Add Ring Csu2 : (rth C).
Local Open Scope rng_scope.
Variable isz : C -> bool.
Hypothesis isz_spec : forall x, isz x = true <-> x = 0.
Variable nss : nat.
Local Notation invariant := (invariant C nss).
Local Notation W4 := (W4 C).
Local Notation Q4 := (Q4 C nss).
Local Notation in_orb := (in_orb nss).
Local Notation val := (val K eq4).

(** *** one element *)
Definition down4 (q : key4) : key4 := let '(m, n, k, l) := q in (m + nss, n + nss, k + nss, l + nss)%nat.
Definition mixed4 (q : key4) : key4 := let '(m, n, k, l) := q in (m, n + nss, k + nss, l)%nat.
Definition mixed4' (q : key4) : key4 := let '(m, n, k, l) := q in (m + nss, n, k, l + nss)%nat.
(** both orders of the orbitals have their own key for opposite spins *)
Definition both_orders (hc : bool) (q : key4) : bool := negb (if eq4 (same4 q) q then true else false) && negb (hc && exchange q).
(** qdot.py 480: "only the matrix elements k>l, n>m have to be specified".  With herm_c an element with k < l is taken without
    its conjugate, which is right only for an exchange element (m, n, m, n).  Elements with m = n or k = l vanish for equal
    spins and density-density elements (m, n, n, m) are Hermitian. *)
Definition ordered (q : key4) : Prop := let '(m, n, k, l) := q in
  m <> n -> k <> l -> ~ (m = l /\ n = k) -> if exchange q then (k < l)%nat else (l < k)%nat.
Definition four (hc ml : bool) (q : key4) (u : C) : op C :=
  if ml then
    oplus C (oplus C (coul_op K hc true (q, u)) (coul_op K hc true (down4 q, u)))
            (oplus C (coul_op K hc true (mixed4 q, u)) (if both_orders hc q then coul_op K hc true (mixed4 (same4 q), u) else ozero C))
  else oplus C (oplus C (coul_op K hc false (q, u)) (coul_op K hc false (down4 q, u)))
               (oplus C (coul_op K hc false (mixed4 q, u)) (coul_op K hc false (mixed4' q, u))).

Lemma two_body_W4 : forall U m n k l f s, two_body K U m n k l f s = U * W4 m n k l f s.
Proof. reflexivity. Qed.
Lemma coul_plain : forall ml m n k l U f s, coul_op K false ml ((m, n, k, l), U) f s = U * W4 m n k l f s.
Proof. intros. unfold coul_op, oplus, wants_conj. cbn [andb]. rewrite two_body_W4. unfold ozero. ring. Qed.
Lemma coul_herm : forall m n k l U f s, coul_op K true true ((m, n, k, l), U) f s =
  U * W4 m n k l f s + if (negb (Nat.eqb m l && Nat.eqb n k) && negb (Nat.ltb k l))%bool then conj U * W4 l k n m f s else 0.
Proof.
  intros. unfold coul_op, oplus, wants_conj. cbn [andb]. rewrite two_body_W4. destruct (_ && _)%bool; [now rewrite two_body_W4|reflexivity].
Qed.
Lemma same_fixed : forall m n k l, same4 (m, n, k, l) = (m, n, k, l) <-> m = n /\ k = l.
Proof. intros. cbn. split; [intros E; injection E; lia|intros (-> & ->); reflexivity]. Qed.

(** *** adjoint operators *)
Definition adj (A B : op C) : Prop := forall s t, length s = (nss + nss)%nat -> length t = (nss + nss)%nat -> mel C A t s = conj (mel C B s t).
Lemma adj_plus : forall A B A' B', adj A B -> adj A' B' -> adj (oplus C A A') (oplus C B B').
Proof. intros A B A' B' H H' s t Ls Lt. unfold mel, oplus. rewrite conj_add. f_equal; [now apply H|now apply H']. Qed.
Lemma adj_scale : forall c A B, adj A B -> adj (oscale C c A) (oscale C (conj c) B).
Proof. intros c A B H s t Ls Lt. unfold mel, oscale. rewrite conj_mul, conj_conj. f_equal. now apply H. Qed.
Lemma adj_zero : adj (ozero C) (ozero C).
Proof. intros s t Ls Lt. unfold mel, ozero. now rewrite conj_0. Qed.
Lemma adj_ext : forall A B A' B', (forall f s, length s = (nss + nss)%nat -> A f s = A' f s) -> (forall f s, length s = (nss + nss)%nat -> B f s = B' f s) ->
  adj A B -> adj A' B'.
Proof. intros A B A' B' E E' H s t Ls Lt. unfold mel. rewrite <- E, <- E' by auto. now apply H. Qed.
Lemma adj_sym : forall A B, adj A B -> adj B A.
Proof. intros A B H s t Ls Lt. rewrite (H t s) by auto. now rewrite conj_conj. Qed.
Lemma adj_sum : forall A (F : A -> op C) l, (forall x, In x l -> adj (F x) (F x)) -> adj (osum C F l) (osum C F l).
Proof.
  intros A F. induction l as [|x l IH]; intros H; cbn [osum]; [apply adj_zero|]. apply adj_plus; [apply H; now left|]. apply IH. intros y Hy. apply H. now right.
Qed.
Lemma adj_W4 : forall m n k l, (m < nss + nss)%nat -> (n < nss + nss)%nat -> (k < nss + nss)%nat -> (l < nss + nss)%nat -> adj (W4 m n k l) (W4 l k n m).
Proof.
  intros m n k l Hm Hn Hk Hl s t Ls Lt. pose proof (two_body_adj K (nss + nss) m n k l 1 t s Hm Hn Hk Hl Lt Ls) as E.
  unfold mel in *. rewrite !two_body_W4, conj_1 in E. transitivity (1 * W4 m n k l (basis C s) t); [ring|]. rewrite E. f_equal. ring.
Qed.
Lemma adj_Q4 : forall m n k l, in_orb (m, n, k, l) -> adj (Q4 m n k l) (Q4 l k n m).
Proof.
  intros m n k l (Hm & Hn & Hk & Hl). unfold SpinInvariant.Q4. repeat apply adj_plus; apply adj_W4; lia.
Qed.
Lemma Q4_same : forall m n k l f s, in_orb (m, n, k, l) -> length s = (nss + nss)%nat -> Q4 n m l k f s = Q4 m n k l f s.
Proof.
  intros m n k l f s (Hm & Hn & Hk & Hl) Ls. unfold SpinInvariant.Q4, oplus.
  rewrite (W4_same C m n k l), (W4_same C (m + nss) (n + nss) (k + nss) (l + nss)), (W4_same C (m + nss) n k (l + nss)), (W4_same C m (n + nss) (k + nss) l) by lia. ring.
Qed.

Definition density (q : key4) : bool := let '(m, n, k, l) := q in (Nat.eqb m l && Nat.eqb n k)%bool.
Definition good (H : Prop) (A : op C) : Prop := invariant A /\ (H -> adj A A).
Lemma good_plus : forall H A B, good H A -> good H B -> good H (oplus C A B).
Proof. intros H A B (A1 & A2) (B1 & B2). split; [now apply invariant_plus|]. intros X. apply adj_plus; auto. Qed.
Lemma good_sum : forall A H (F : A -> op C) l, (forall x, In x l -> good H (F x)) -> good H (osum C F l).
Proof. intros A H F l G. split; [apply invariant_sum|intros X; apply adj_sum]; intros x Hx; now apply G. Qed.
Lemma good_zero : forall H, good H (ozero C).
Proof. intros H. split; [apply invariant_zero|intros _; apply adj_zero]. Qed.
Lemma good_imp : forall (H H' : Prop) A, (H' -> H) -> good H A -> good H' A.
Proof. intros H H' A X (G1 & G2). split; auto. Qed.
Lemma good_ext : forall H A B, (forall f s, length s = (nss + nss)%nat -> A f s = B f s) -> good H A -> good H B.
Proof. intros H A B E (G1 & G2). split; [now apply (invariant_ext C nss A)|]. intros X. apply (adj_ext A A); auto. Qed.

Theorem four_good : forall hc ml q u, (hc = true -> ml = true) -> in_orb q -> (hc = true -> ordered q) ->
  (hc = true -> exchange q = true -> same4 q <> q -> conj u = u) -> good (hc = true /\ (density q = true -> conj u = u)) (four hc ml q u).
Proof.
  intros hc ml [[[m n] k] l] u HM Hq CV RL. pose proof Hq as (Hm & Hn & Hk & Hl). unfold four. 
  assert (S1 : forall f s, length s = (nss + nss)%nat -> W4 n (m + nss) (l + nss) k f s = W4 (m + nss) n k (l + nss) f s).
  { intros f s Ls. apply W4_same; lia. }
  assert (S2 : forall f s, length s = (nss + nss)%nat -> W4 k (l + nss) (m + nss) n f s = W4 (l + nss) k n (m + nss) f s).
  { intros f s Ls. apply W4_same; lia. }
  assert (CC : forall a b c f s, length s = (nss + nss)%nat -> (a < nss)%nat -> W4 a a b c f s = 0 /\ W4 (a + nss) (a + nss) b c f s = 0).
  { intros a b c f s Ls Ha. split; apply W4_cc; lia. }
  assert (AA : forall a b c f s, length s = (nss + nss)%nat -> (c < nss)%nat -> W4 a b c c f s = 0 /\ W4 a b (c + nss) (c + nss) f s = 0).
  { intros a b c f s Ls Ha. split; apply W4_aa; lia. }
  assert (IQ : invariant (oscale C u (Q4 m n k l))) by (apply invariant_scale, invariant_quad; auto).
  destruct ml.
  2: { destruct hc; [discriminate (HM eq_refl)|]. apply (good_ext _ (oscale C u (Q4 m n k l))); [|split; auto; intros (E & _); discriminate].
       intros f s Ls. unfold oplus. cbn [down4 mixed4 mixed4']. rewrite !coul_plain. unfold oscale, SpinInvariant.Q4, oplus. ring. }
  unfold both_orders. destruct (eq4 (same4 (m, n, k, l)) (m, n, k, l)) as [E|NE]; cbn [negb andb].
  - apply same_fixed in E. destruct E as (<- & <-).
    assert (IP : invariant (oscale C u (W4 m (m + nss) (k + nss) k))) by (apply invariant_scale, invariant_pair; auto).
    destruct hc.
    + destruct (Nat.eq_dec m k) as [<-|N].
      * apply (good_ext _ (oscale C u (W4 m (m + nss) (m + nss) m))).
        { intros f s Ls. unfold oplus. cbn [down4 mixed4].
          rewrite !coul_herm. rewrite !Nat.eqb_refl. cbn [andb negb]. destruct (CC m m m f s Ls Hm) as (-> & _).
          destruct (CC m (m + nss)%nat (m + nss)%nat f s Ls Hm) as (_ & ->). unfold oscale, ozero. ring. }
        split; auto. intros (_ & RD). cbn [density] in RD. rewrite !Nat.eqb_refl in RD. specialize (RD eq_refl).
        pose proof (adj_scale u _ _ (adj_W4 m (m + nss) (m + nss) m ltac:(lia) ltac:(lia) ltac:(lia) ltac:(lia))) as G. now rewrite RD in G.
      * apply (good_ext _ (oplus C (oscale C u (W4 m (m + nss) (k + nss) k)) (oscale C (conj u) (W4 k (k + nss) (m + nss) m)))).
        { intros f s Ls. unfold oplus. cbn [down4 mixed4]. rewrite !coul_herm.
          rewrite (proj2 (Nat.eqb_neq m k)) by auto. cbn [andb negb]. rewrite (proj2 (Nat.ltb_ge (k + nss) k)) by lia. rewrite !Nat.ltb_irrefl. cbn [negb].
          rewrite (proj2 (Nat.eqb_neq (m + nss) (k + nss))) by lia. cbn [andb negb].
          rewrite (proj1 (CC m k k f s Ls Hm)), (proj1 (CC k m m f s Ls Hk)).
          rewrite (proj2 (CC m (k + nss)%nat (k + nss)%nat f s Ls Hm)), (proj2 (CC k (m + nss)%nat (m + nss)%nat f s Ls Hk)). unfold oscale, ozero. ring. }
        split.
        { apply invariant_plus; auto. apply invariant_scale, invariant_pair; auto. }
        intros _. pose proof (adj_scale u _ _ (adj_W4 m (m + nss) (k + nss) k ltac:(lia) ltac:(lia) ltac:(lia) ltac:(lia))) as G.
        refine (adj_ext _ _ _ _ _ _ (adj_plus _ _ _ _ G (adj_sym _ _ G))); intros f s Ls; unfold oplus; ring.
    + apply (good_ext _ (oscale C u (W4 m (m + nss) (k + nss) k))); [|split; auto; intros (E & _); discriminate]. intros f s Ls. unfold oplus. cbn [down4 mixed4].
      rewrite !coul_plain. rewrite (proj1 (CC m k k f s Ls Hm)), (proj2 (CC m (k + nss)%nat (k + nss)%nat f s Ls Hm)). unfold oscale, ozero. ring.
  - assert (NF : ~ (m = n /\ k = l)) by (intros X; apply NE; now apply same_fixed).
    destruct hc.
    2: { cbn [andb negb]. apply (good_ext _ (oscale C u (Q4 m n k l))); [|split; auto; intros (E & _); discriminate]. intros f s Ls. unfold oplus. cbn [down4 mixed4 same4].
         rewrite !coul_plain. rewrite S1 by auto. unfold oscale, SpinInvariant.Q4, oplus. ring. }
    specialize (CV eq_refl). specialize (RL eq_refl). unfold ordered in CV. cbn [andb].
    destruct (exchange (m, n, k, l)) eqn:EX; cbn [negb].
    + specialize (RL eq_refl NE). cbn [exchange] in EX. apply Bool.andb_true_iff in EX. rewrite !Nat.eqb_eq in EX. destruct EX as (<- & <-).
      assert (N : m <> n) by lia. assert (LT : (m < n)%nat) by (apply CV; lia).
      apply (good_ext _ (oscale C u (Q4 m n m n))).
      { intros f s Ls. unfold oplus. cbn [down4 mixed4]. rewrite !coul_herm.
        rewrite (proj2 (Nat.ltb_lt m n)) by lia. rewrite (proj2 (Nat.ltb_lt (m + nss) (n + nss))) by lia. rewrite (proj2 (Nat.ltb_ge (m + nss) n)) by lia.
        rewrite (proj2 (Nat.eqb_neq m n)) by lia. cbn [negb]. rewrite !Bool.andb_false_r. cbn [andb negb]. rewrite RL, S1 by auto.
        unfold oscale, SpinInvariant.Q4, oplus, ozero. ring. }
      split; auto. intros _. pose proof (adj_scale u _ _ (adj_Q4 m n m n Hq)) as G. rewrite RL in G. refine (adj_ext _ _ _ _ _ _ G); [reflexivity|].
      intros f s Ls. unfold oscale. now rewrite (Q4_same m n m n f s Hq Ls).
    + assert (NX : ~ (m = k /\ n = l)).
      { intros (-> & ->). cbn in EX. rewrite !Nat.eqb_refl in EX. discriminate. }
      destruct (Nat.eq_dec m l) as [Em|Em], (Nat.eq_dec n k) as [En|En].
      1: { subst l k. apply (good_ext _ (oscale C u (Q4 m n n m))).
           { intros f s Ls. unfold oplus. cbn [down4 mixed4 same4]. rewrite !coul_herm.
             rewrite !Nat.eqb_refl. cbn [andb negb]. rewrite S1 by auto. unfold oscale, SpinInvariant.Q4, oplus. ring. }
           split; auto. intros (_ & RD). cbn [density] in RD. rewrite !Nat.eqb_refl in RD. specialize (RD eq_refl).
           pose proof (adj_scale u _ _ (adj_Q4 m n n m Hq)) as G. now rewrite RD in G. }
      all: apply (good_ext _ (oplus C (oscale C u (Q4 m n k l)) (oscale C (conj u) (Q4 l k n m))));
        [|split; [apply invariant_plus; auto; apply invariant_scale, invariant_quad; auto|];
          intros _; pose proof (adj_scale u _ _ (adj_Q4 m n k l Hq)) as G;
          refine (adj_ext _ _ _ _ _ _ (adj_plus _ _ _ _ G (adj_sym _ _ G))); intros f s Ls; unfold oplus; ring];
        intros f s Ls; unfold oplus; cbn [down4 mixed4 same4]; rewrite !coul_herm;
        (assert (D1 : (Nat.eqb m l && Nat.eqb n k)%bool = false) by (apply Bool.andb_false_iff; rewrite !Nat.eqb_neq; lia));
        (assert (D2 : (Nat.eqb (m + nss) (l + nss) && Nat.eqb (n + nss) (k + nss))%bool = false) by (apply Bool.andb_false_iff; rewrite !Nat.eqb_neq; lia));
        (assert (D3 : (Nat.eqb m l && Nat.eqb (n + nss) (k + nss))%bool = false) by (apply Bool.andb_false_iff; rewrite !Nat.eqb_neq; lia));
        (assert (D4 : (Nat.eqb n k && Nat.eqb (m + nss) (l + nss))%bool = false) by (apply Bool.andb_false_iff; rewrite !Nat.eqb_neq; lia));
        rewrite D1, D2, D3, D4; cbn [negb andb];
        rewrite (proj2 (Nat.ltb_ge (k + nss) l)), (proj2 (Nat.ltb_ge (l + nss) k)) by lia; cbn [negb];
        replace (Nat.ltb (k + nss) (l + nss)) with (Nat.ltb k l) by (destruct (Nat.ltb_spec k l); symmetry; (apply Nat.ltb_lt || apply Nat.ltb_ge); lia);
        rewrite S1, S2 by auto; unfold oscale, SpinInvariant.Q4, oplus;
        (destruct (Nat.eq_dec m n) as [<-|Nmn];
         [rewrite (proj1 (AA l k m f s Ls Hm)), (proj2 (AA (l + nss)%nat (k + nss)%nat m f s Ls Hm)); destruct (Nat.ltb k l); cbn [negb]; ring|]);
        (destruct (Nat.eq_dec k l) as [<-|Nkl]; [rewrite Nat.ltb_irrefl; cbn [negb]; ring|]);
        (rewrite (proj2 (Nat.ltb_ge k l)) by (enough (l < k)%nat by lia; apply CV; lia)); cbn [negb]; ring.
Qed.

(** *** all elements *)
Definition orbs (n : nat) : list key4 := list_prod (list_prod (list_prod (seq 0 n) (seq 0 n)) (seq 0 n)) (seq 0 n).
Lemma in_orbs : forall n a b c e, In (a, b, c, e) (orbs n) <-> (a < n /\ b < n /\ c < n /\ e < n)%nat.
Proof. intros. unfold orbs. rewrite !in_prod_iff, !in_seq. lia. Qed.
Lemma seq_plus : forall w a b, map (fun x => (x + b)%nat) (seq a w) = seq (a + b) w.
Proof. induction w as [|w IH]; intros a b; auto. cbn [seq map]. f_equal. apply (IH (S a) b). Qed.
Lemma seq_double : forall (g : nat -> C), rsum g (seq 0 (nss + nss)) = rsum (fun a => g a + g (a + nss)%nat) (seq 0 nss).
Proof.
  intros g. rewrite seq_app, rsum_app, rsum_plus. f_equal. pose proof (seq_plus nss 0 nss) as E. cbn [Nat.add] in *. rewrite <- E. now rewrite rsum_map.
Qed.
Definition spins_ok (q : key4) : bool :=
  match ups nss q with (true, true, true, true) | (false, false, false, false) | (true, false, false, true) | (false, true, true, false) => true | _ => false end.
Lemma orbs_split : forall g : key4 -> C, (forall q, spins_ok q = false -> g q = 0) ->
  rsum g (orbs (nss + nss)) = rsum (fun q => g q + g (down4 q) + (g (mixed4 q) + g (mixed4' q))) (orbs nss).
Proof.
  intros g Z. unfold orbs. rewrite !rsum_prod, !seq_double. apply rsum_ext. intros m Hm. rewrite !seq_double, <- rsum_plus. apply rsum_ext. intros n Hn.
  rewrite !seq_double, <- !rsum_plus. apply rsum_ext. intros k Hk. rewrite !seq_double, <- !rsum_plus. apply rsum_ext. intros l Hl.
  apply in_seq in Hm, Hn, Hk, Hl. cbn [down4 mixed4 mixed4'].
  assert (B : forall a b c e, spins_ok (a, b, c, e) = false -> g (a, b, c, e) = 0) by (intros; now apply Z).
  assert (U : forall a, (a < nss)%nat -> Nat.ltb a nss = true) by (intros; now apply Nat.ltb_lt).
  assert (D : forall a, Nat.ltb (a + nss) nss = false) by (intros; apply Nat.ltb_ge; lia).
  rewrite (B m n k (l + nss)%nat), (B m n (k + nss)%nat l), (B m n (k + nss)%nat (l + nss)%nat), (B m (n + nss)%nat k l), (B m (n + nss)%nat k (l + nss)%nat),
    (B m (n + nss)%nat (k + nss)%nat (l + nss)%nat), (B (m + nss)%nat n k l), (B (m + nss)%nat n (k + nss)%nat l), (B (m + nss)%nat n (k + nss)%nat (l + nss)%nat),
    (B (m + nss)%nat (n + nss)%nat k l), (B (m + nss)%nat (n + nss)%nat k (l + nss)%nat), (B (m + nss)%nat (n + nss)%nat (k + nss)%nat l)
    by (unfold spins_ok, ups; rewrite ?D, ?(U m), ?(U n), ?(U k), ?(U l) by lia; reflexivity). ring.
Qed.

(** the stored dictionary: [P] are the keys used for the orbitals *)
Section Dict.
Variables (hc ml : bool) (P : key4 -> Prop) (RD : Prop).
Hypothesis HM : hc = true -> ml = true.
Hypothesis P_once : ml = true -> forall q, P q -> same4 q <> q -> ~ P (same4 q).
Hypothesis P_ordered : hc = true -> forall q, P q -> ordered q.
Definition su2_self (d : dict key4 C) : Prop :=
  NoDup (map fst d) /\ (forall q, In q (map fst d) -> rng4 nss q) /\
  (forall q, in_orb q -> val d (down4 q) = val d q) /\
  (forall q, in_orb q -> val d (mixed4 q) = if ml then val d q + (if both_orders hc q then val d (same4 q) else 0) else val d q) /\
  (forall q, in_orb q -> val d (mixed4' q) = if ml then 0 else val d q) /\
  (forall q, spins_ok q = false -> val d q = 0) /\
  (forall q, in_orb q -> ~ P q -> val d q = 0) /\
  (hc = true -> forall q, in_orb q -> exchange q = true -> same4 q <> q -> conj (val d q) = val d q) /\
  (RD -> forall q, in_orb q -> density q = true -> conj (val d q) = val d q).
Definition su2_new (d : dict key4 C) : Prop :=
  NoDup (map fst d) /\ (forall q, In q (map fst d) -> rng4 nss q) /\
  (forall q, in_orb q -> dget eq4 d (down4 q) = dget eq4 d q) /\
  (forall q, in_orb q -> dget eq4 d (mixed4 q) =
     if ml then match dget eq4 d q with Some v => Some v | None => if both_orders hc q then dget eq4 d (same4 q) else None end else dget eq4 d q) /\
  (forall q, in_orb q -> dget eq4 d (mixed4' q) = if ml then None else dget eq4 d q) /\
  (forall q, spins_ok q = false -> dget eq4 d q = None) /\
  (forall q v, in_orb q -> dget eq4 d q = Some v -> P q) /\
  (hc = true -> forall q v, in_orb q -> exchange q = true -> same4 q <> q -> dget eq4 d q = Some v -> conj v = v) /\
  (RD -> forall q v, in_orb q -> density q = true -> dget eq4 d q = Some v -> conj v = v).
Lemma same_orb : forall q, in_orb q -> in_orb (same4 q).
Proof. intros [[[m n] k] l] H. cbn in *. tauto. Qed.
Lemma same_same : forall q : key4, same4 (same4 q) = q.
Proof. intros [[[m n] k] l]. reflexivity. Qed.
Lemma both_same : forall q, both_orders hc (same4 q) = both_orders hc q.
Proof.
  intros q. unfold both_orders. rewrite same_same. 
  assert (E : exchange (same4 q) = exchange q) by (destruct q as [[[m n] k] l]; cbn; apply Bool.andb_comm). rewrite E.
  destruct (eq4 q (same4 q)), (eq4 (same4 q) q); congruence.
Qed.
Lemma both_neq : forall q, both_orders hc q = true -> same4 q <> q.
Proof. intros q H E. unfold both_orders in H. destruct (eq4 (same4 q) q); [discriminate|contradiction]. Qed.
Lemma su2_new_self : forall d, su2_new d -> su2_self d.
Proof.
  intros d (H1 & H2 & H3 & H4 & H5 & H6 & H7 & H8 & H9). unfold su2_self, ParamsProofs.val. repeat split; auto.
  - intros q Hq. now rewrite H3.
  - intros q Hq. rewrite H4 by auto. destruct ml eqn:Eml; auto. destruct (dget eq4 d q) as [v|] eqn:E.
    + destruct (both_orders hc q) eqn:B; [|ring]. destruct (dget eq4 d (same4 q)) as [w|] eqn:E'; [|ring].
      exfalso. apply (P_once eq_refl q); [eapply H7; eauto|now apply both_neq|eapply H7; eauto]. now apply same_orb.
    + destruct (both_orders hc q); [|ring]. destruct (dget eq4 d (same4 q)); ring.
  - intros q Hq. rewrite H5 by auto. destruct ml; auto.
  - intros q Hq. now rewrite H6.
  - intros q Hq N. destruct (dget eq4 d q) as [v|] eqn:E; auto. exfalso. apply N. eapply H7; eauto.
  - intros Eh q Hq EX NE. destruct (dget eq4 d q) as [v|] eqn:E; [eapply H8; eauto|apply conj_0].
  - intros R q Hq DE. destruct (dget eq4 d q) as [v|] eqn:E; [eapply H9; eauto|apply conj_0].
Qed.
Lemma su2_nil : su2_new [].
Proof.
  split; [constructor|]. split; [intros q []|]. repeat split; auto; try discriminate.
  all: intros; cbn [dget]; try (destruct ml); try (destruct (both_orders hc q)); reflexivity.
Qed.
Lemma su2_add : forall self new, su2_self self -> su2_new new -> su2_self (dadd K eq4 self new).
Proof.
  intros self new (S1 & S2 & S3 & S4 & S5 & S6 & S7 & S8 & S9) N. pose proof (su2_new_self _ N) as (N1 & N2 & N3 & N4 & N5 & N6 & N7 & N8 & N9).
  split; [now apply dadd_nodup|]. split; [intros q Hq; apply dadd_keys in Hq; destruct Hq; auto|].
  repeat split; intros; rewrite !dadd_val by auto.
  - rewrite S3, N3; auto.
  - rewrite S4, N4 by auto. destruct ml; auto. destruct (both_orders hc q); ring.
  - rewrite S5, N5 by auto. destruct ml; auto. ring.
  - rewrite S6, N6 by auto. ring.
  - rewrite S7, N7 by auto. ring.
  - rewrite conj_add, S8, N8; auto.
  - rewrite conj_add, S9, N9; auto.
Qed.
Lemma su2_change : forall self new, su2_self self -> su2_new new -> su2_self (fst (dchange K isz eq4 true self new)).
Proof.
  intros self new (S1 & S2 & S3 & S4 & S5 & S6 & S7 & S8 & S9) (N1 & N2 & N3 & N4 & N5 & N6 & N7 & N8 & N9).
  split; [now apply dchange_nodup|]. split; [intros q Hq; apply dchange_keys in Hq; destruct Hq; auto|].
  repeat split; intros; rewrite !dchange_val by auto.
  - rewrite N3 by auto. destruct (dget eq4 new q); auto.
  - rewrite N4 by auto. destruct ml eqn:Eml.
    + destruct (dget eq4 new q) as [v|] eqn:E.
      * destruct (both_orders hc q) eqn:B; [|ring].
        assert (Z : ~ P (same4 q)) by (apply (P_once eq_refl); [eapply N7; eauto|now apply both_neq]).
        destruct (dget eq4 new (same4 q)) as [w|] eqn:E'; [exfalso; apply Z; eapply N7; eauto; now apply same_orb|]. rewrite S7 by (auto; now apply same_orb). ring.
      * rewrite S4 by auto. destruct (both_orders hc q) eqn:B; [|reflexivity].
        destruct (dget eq4 new (same4 q)) as [w|] eqn:E'; auto.
        rewrite (S7 q); [ring|auto|]. rewrite <- (same_same q). apply (P_once eq_refl); [eapply N7; eauto; now apply same_orb|].
        rewrite same_same. intros X. symmetry in X. now apply (both_neq q B).
    + destruct (dget eq4 new q); auto.
  - rewrite N5 by auto. destruct ml; auto. destruct (dget eq4 new q); auto.
  - rewrite N6 by auto. auto.
  - destruct (dget eq4 new q) as [v|] eqn:E; auto. exfalso. eauto.
  - destruct (dget eq4 new q) as [v|] eqn:E; auto. eapply N8; eauto.
  - destruct (dget eq4 new q) as [v|] eqn:E; auto. eapply N9; eauto.
Qed.

Lemma coul_add : forall b q u v f s, coul_op K hc b (q, u + v) f s = coul_op K hc b (q, u) f s + coul_op K hc b (q, v) f s.
Proof.
  intros b [[[m n] k] l] u v f s. unfold coul_op, oplus. destruct (wants_conj hc b m n k l); rewrite !two_body_W4; rewrite ?conj_add; unfold ozero; ring.
Qed.
Lemma same_perm : Permutation (map same4 (orbs nss)) (orbs nss).
Proof.
  assert (ND : NoDup (orbs nss)) by (unfold orbs; repeat apply list_prod_nodup; apply seq_NoDup).
  apply NoDup_Permutation; auto.
  - apply nodup_map; auto. intros a b _ _ E. rewrite <- (same_same a), <- (same_same b). congruence.
  - intros q. rewrite in_map_iff. split.
    + intros (x & <- & Hx). destruct x as [[[m n] k] l]. apply in_orbs in Hx. apply in_orbs. tauto.
    + intros Hq. exists (same4 q). split; [apply same_same|]. destruct q as [[[m n] k] l]. apply in_orbs in Hq. apply in_orbs. tauto.
Qed.
Theorem coulomb_good : forall d, su2_self d -> good (hc = true /\ RD) (osum C (coul_op K hc ml) d).
Proof.
  intros d (S1 & S2 & S3 & S4 & S5 & S6 & S7 & S8 & S9).
  apply (good_ext _ (osum C (fun q => four hc ml q (val d q)) (orbs nss))).
  - intros f s Ls. rewrite !osum_at.
    transitivity (rsum (fun q => coul_op K hc ml (q, val d q) f s) (orbs (nss + nss))).
    + rewrite (orbs_split (fun q => coul_op K hc ml (q, val d q) f s)).
      2: { intros q Hq. rewrite S6 by auto. apply coul_zero. }
      unfold four. destruct ml eqn:Eml.
      * unfold oplus.
        assert (R : rsum (fun q => coul_op K hc true (mixed4 q, if both_orders hc q then val d (same4 q) else 0) f s) (orbs nss) =
          rsum (fun q => (if both_orders hc q then coul_op K hc true (mixed4 (same4 q), val d q) else ozero C) f s) (orbs nss)).
        { rewrite <- (rsum_perm _ _ _ _ _ same_perm), rsum_map. apply rsum_ext. intros q _. rewrite both_same, same_same.
          destruct (both_orders hc q); [reflexivity|]. apply coul_zero. }
        rewrite !rsum_plus. rewrite <- R. rewrite <- !rsum_plus. apply rsum_ext. intros [[[m n] k] l] Hq. apply in_orbs in Hq.
        assert (O : in_orb (m, n, k, l)) by exact Hq. rewrite S3, S4, S5 by auto. rewrite coul_zero, coul_add. ring.
      * apply rsum_ext. intros [[[m n] k] l] Hq. apply in_orbs in Hq. assert (O : in_orb (m, n, k, l)) by exact Hq.
        rewrite S3, S4, S5 by auto. reflexivity.
    + rewrite <- (total_range K eq4 (fun q v => coul_op K hc ml (q, v) f s) (fun q => coul_zero K hc ml q f s) (orbs (nss + nss)) d).
      * apply rsum_ext. intros [q v] _. reflexivity.
      * unfold orbs. repeat apply list_prod_nodup; apply seq_NoDup.
      * exact S1.
      * intros [[[a b] c] e] Hq. apply S2 in Hq. apply in_orbs. cbn in Hq. unfold lev in Hq. lia.
  - apply good_sum. intros [[[m n] k] l] Hq. apply in_orbs in Hq. assert (O : in_orb (m, n, k, l)) by exact Hq.
    destruct (isz (val d (m, n, k, l))) eqn:EZ.
    + apply isz_spec in EZ. rewrite EZ. apply (good_ext _ (ozero C)); [|apply good_zero]. intros f s Ls. unfold ozero, four.
      destruct ml; unfold oplus; rewrite !coul_zero; [destruct (both_orders hc (m, n, k, l)); [rewrite coul_zero|unfold ozero]|]; ring.
    + assert (NP : ~ ~ P (m, n, k, l)).
      { intros N. rewrite (S7 _ O N) in EZ. rewrite (proj2 (isz_spec 0) eq_refl) in EZ. discriminate. }
      apply (good_imp (hc = true /\ (density (m, n, k, l) = true -> conj (val d (m, n, k, l)) = val d (m, n, k, l)))); [intros (E1 & E2); split; auto|].
      apply four_good; auto.
      intros E. unfold ordered. intros A1 A2 A3. destruct (exchange (m, n, k, l)) eqn:EX.
      * destruct (Nat.lt_ge_cases k l) as [|G]; auto. exfalso. apply NP. intros Pq. pose proof (P_ordered E _ Pq) as X. unfold ordered in X.
        rewrite EX in X. specialize (X A1 A2 A3). lia.
      * destruct (Nat.lt_ge_cases l k) as [|G]; auto. exfalso. apply NP. intros Pq. pose proof (P_ordered E _ Pq) as X. unfold ordered in X.
        rewrite EX in X. specialize (X A1 A2 A3). lia.
Qed.

(** what one argument gives *)
Lemma last_none : forall qs (d : list (key4 * C)) q, last_with K qs d = None -> In q qs -> dget eq4 d q = None.
Proof.
  intros qs d q H Hq. apply dget_none. intros I1. apply in_map_iff in I1. destruct I1 as ([q' v] & E & I1). cbn [fst] in E. subst q'.
  unfold last_with in H. destruct (find _ (rev d)) eqn:F; [discriminate|]. apply (find_none _ _ F (q, v)) in I1 || apply in_rev in I1.
  apply (find_none _ _ F) in I1. cbn [fst] in I1. destruct (in_dec eq4 q qs); [discriminate|contradiction].
Qed.
Lemma last_one : forall (d : list (key4 * C)) q, NoDup (map fst d) -> last_with K [q] d = dget eq4 d q.
Proof.
  intros d q ND. destruct (last_with K [q] d) as [v|] eqn:E.
  - apply last_with_in in E. destruct E as (q' & [<-|[]] & H). symmetry. now apply dget_nodup.
  - symmetry. apply (last_none _ _ _ E). now left.
Qed.
Lemma last_two : forall (d : list (key4 * C)) q q', NoDup (map fst d) -> (q' <> q -> In q (map fst d) -> ~ In q' (map fst d)) ->
  last_with K [q; q'] d = match dget eq4 d q with Some v => Some v | None => dget eq4 d q' end.
Proof.
  intros d q q' ND T. destruct (last_with K [q; q'] d) as [v|] eqn:E.
  - apply last_with_in in E. destruct E as (q0 & Hq & H). pose proof (proj2 (dget_nodup eq4 _ _ _ ND) H) as G. destruct Hq as [<-|[<-|[]]].
    + now rewrite G.
    + destruct (dget eq4 d q) as [w|] eqn:E; [|now rewrite G]. destruct (eq4 q' q) as [->|N]; [congruence|]. exfalso.
      apply dget_in in E. apply (T N); apply in_map_iff; [exists (q, w)|exists (q', v)]; auto.
  - rewrite (last_none _ _ q E), (last_none _ _ q' E); auto; [right; now left|now left].
Qed.
Theorem cl_su2 : forall x, cl_input_ok K nss hc x -> (forall q, In q (map fst (rows_of K x)) -> P q) ->
  (RD -> forall q v, In (q, v) (rows_of K x) -> density q = true -> conj v = v) ->
  su2_new (make_coulomb_dict K isz hc ml true nss x).
Proof.
  intros x (W & O & HC) HP HD.
  assert (PK : forall q, In q (map fst (cl_plain K isz x)) -> In q (map fst (rows_of K x))).
  { intros q H. apply in_map_iff in H. destruct H as (e & <- & He). apply in_map. revert He. now apply cl_plain_rows. }
  assert (ND : NoDup (map fst (cl_plain K isz x))) by now apply cl_plain_nodup.
  assert (G : forall q, dget eq4 (make_coulomb_dict K isz hc ml true nss x) q = spin_val K nss hc ml (cl_plain K isz x) q).
  { intros q. rewrite cl_dict_plain. apply C43_coulomb; auto. intros E. split; auto. apply (no_twins_incl _ (map fst (rows_of K x))); auto. now apply HC. }
  assert (GO : forall q, in_orb q -> dget eq4 (make_coulomb_dict K isz hc ml true nss x) q = dget eq4 (cl_plain K isz x) q).
  { intros [[[m n] k] l] (Hm & Hn & Hk & Hl). rewrite G. cbn [spin_val]. rewrite !(proj2 (Nat.ltb_lt _ nss)) by auto. now apply last_one. }
  destruct (cl_new_sym K isz nss hc ml x HM (Logic.conj W (Logic.conj O HC))) as (N1 & N2 & _).
  split; [exact N1|]. split; [exact N2|].
  assert (U : forall a, (a < nss)%nat -> Nat.ltb a nss = true) by (intros; now apply Nat.ltb_lt).
  assert (D : forall a, Nat.ltb (a + nss) nss = false) by (intros; apply Nat.ltb_ge; lia).
  assert (MN : forall a, (a + nss - nss)%nat = a) by (intros; lia).
  repeat split.
  - intros [[[m n] k] l] O1. rewrite (GO _ O1). destruct O1 as (Hm & Hn & Hk & Hl). rewrite G. cbn [spin_val down4]. rewrite !D, !MN. now apply last_one.
  - intros [[[m n] k] l] O1. rewrite (GO (m, n, k, l) O1), (GO (same4 (m, n, k, l)) (same_orb _ O1)). destruct O1 as (Hm & Hn & Hk & Hl). rewrite G. cbn [spin_val mixed4].
    rewrite !D, (U m), (U l) by auto. rewrite !MN. destruct ml eqn:Eml; [|now apply last_one].
    unfold both_orders. cbn [exchange]. rewrite <- Bool.andb_assoc. destruct (hc && (Nat.eqb m k && Nat.eqb n l))%bool.
    + rewrite Bool.andb_false_r. rewrite last_one by auto. destruct (dget eq4 _ (m, n, k, l)); reflexivity.
    + rewrite last_two; auto.
      * cbn [negb]. rewrite Bool.andb_true_r. cbn [same4]. destruct (dget eq4 (cl_plain K isz x) (m, n, k, l)) as [v|] eqn:E; auto.
        destruct (eq4 (n, m, l, k) (m, n, k, l)) as [EE|NE]; cbn [negb]; auto. now rewrite EE.
      * intros NE I1 I2. apply (P_once eq_refl (m, n, k, l)); auto.
  - intros [[[m n] k] l] O1. rewrite (GO _ O1). destruct O1 as (Hm & Hn & Hk & Hl). rewrite G. cbn [spin_val mixed4'].
    rewrite !D, (U n), (U k) by auto. rewrite !MN. destruct ml; auto. now apply last_one.
  - intros [[[a b] c] e] B. rewrite G. unfold spins_ok, ups in B. cbn [spin_val].
    destruct (Nat.ltb a nss), (Nat.ltb b nss), (Nat.ltb c nss), (Nat.ltb e nss); try discriminate B; reflexivity.
  - intros q v O1 E. rewrite GO in E by auto. apply HP, PK. apply dget_in in E. apply in_map_iff. exists (q, v). auto.
  - intros Eh [[[m n] k] l] v O1 EX NE E. rewrite GO in E by auto. apply dget_in in E. apply cl_plain_rows in E.
    destruct (HC Eh) as (TW & HR). cbn [exchange] in EX. apply Bool.andb_true_iff in EX. rewrite !Nat.eqb_eq in EX. destruct EX as (<- & <-).
    apply (HR m n); auto. intros <-. now apply NE.
  - intros R q v O1 DE E. rewrite GO in E by auto. apply dget_in in E. apply cl_plain_rows in E. now apply (HD R q v).
Qed.
End Dict.

(** *** the one-body part *)
Definition val2 (d : dict (nat * nat) C) := ParamsProofs.val K eq2 d.
Lemma adj_W2 : forall i j, (i < nss + nss)%nat -> (j < nss + nss)%nat -> adj (W2 C i j) (W2 C j i).
Proof.
  intros i j Hi Hj s t Ls Lt. pose proof (hop_adj K (nss + nss) j i 1 t s Hj Hi Lt Ls) as E.
  unfold mel, oscale in *. rewrite conj_1 in E. change (ocomp C (cre C i) (ann C j)) with (W2 C i j) in E. change (ocomp C (cre C j) (ann C i)) with (W2 C j i) in E.
  transitivity (1 * W2 C i j (basis C s) t); [ring|]. rewrite E. f_equal. ring.
Qed.
Lemma hop_W2 : forall hh i j v f s, hop_op K hh ((i, j), v) f s = v * W2 C j i f s + if (hh && negb (Nat.eqb i j))%bool then conj v * W2 C i j f s else 0.
Proof. intros. unfold hop_op, oplus. destruct (hh && _)%bool; reflexivity. Qed.
Definition H2 (i j : nat) : op C := oplus C (W2 C i j) (W2 C (i + nss) (j + nss)).
Lemma two_good : forall hh i j v, (i < nss)%nat -> (j < nss)%nat ->
  good (hh = true /\ (i = j -> conj v = v)) (oplus C (hop_op K hh ((i, j), v)) (hop_op K hh (((i + nss)%nat, (j + nss)%nat), v))).
Proof.
  intros hh i j v Hi Hj.
  assert (A : adj (H2 j i) (H2 i j)) by (apply adj_plus; apply adj_W2; lia).
  assert (I1 : invariant (H2 i j)) by (apply invariant_hop; auto). assert (I2 : invariant (H2 j i)) by (apply invariant_hop; auto).
  assert (EQ : Nat.eqb (i + nss) (j + nss) = Nat.eqb i j) by (destruct (Nat.eqb_spec i j) as [->|N]; [apply Nat.eqb_refl|apply Nat.eqb_neq; lia]).
  destruct (hh && negb (Nat.eqb i j))%bool eqn:B.
  - apply (good_ext _ (oplus C (oscale C v (H2 j i)) (oscale C (conj v) (H2 i j)))).
    { intros f s Ls. unfold oplus. rewrite !hop_W2, EQ, B. unfold oscale, H2, oplus. ring. }
    split; [apply invariant_plus; apply invariant_scale; auto|]. intros _.
    pose proof (adj_scale v _ _ A) as G. refine (adj_ext _ _ _ _ _ _ (adj_plus _ _ _ _ G (adj_sym _ _ G))); intros f s Ls; unfold oplus; ring.
  - apply (good_ext _ (oscale C v (H2 j i))).
    { intros f s Ls. unfold oplus. rewrite !hop_W2, EQ, B. unfold oscale, H2, oplus. ring. }
    split; [apply invariant_scale; auto|]. intros (-> & X). cbn [andb] in B. apply Bool.negb_false_iff, Nat.eqb_eq in B. subst j.
    pose proof (adj_scale v _ _ A) as G. now rewrite (X eq_refl) in G.
Qed.
Section DictH.
Variables (hh : bool) (RD : Prop).
Definition su2_hself (d : dict (nat * nat) C) : Prop :=
  NoDup (map fst d) /\ (forall k, In k (map fst d) -> rng2 nss k) /\
  (forall i j, (i < nss)%nat -> (j < nss)%nat -> val2 d ((i + nss)%nat, (j + nss)%nat) = val2 d (i, j)) /\
  (forall i j, Nat.ltb i nss <> Nat.ltb j nss -> val2 d (i, j) = 0) /\
  (RD -> forall i, (i < nss)%nat -> conj (val2 d (i, i)) = val2 d (i, i)).
Definition su2_hnew (d : dict (nat * nat) C) : Prop :=
  NoDup (map fst d) /\ (forall k, In k (map fst d) -> rng2 nss k) /\
  (forall i j, (i < nss)%nat -> (j < nss)%nat -> dget eq2 d ((i + nss)%nat, (j + nss)%nat) = dget eq2 d (i, j)) /\
  (forall i j, Nat.ltb i nss <> Nat.ltb j nss -> dget eq2 d (i, j) = None) /\
  (RD -> forall i v, (i < nss)%nat -> dget eq2 d (i, i) = Some v -> conj v = v).
Lemma su2_hnew_self : forall d, su2_hnew d -> su2_hself d.
Proof.
  intros d (H1 & H2 & H3 & H4 & H5). unfold su2_hself, val2, ParamsProofs.val. repeat split; auto.
  - now apply H2.
  - now apply H2.
  - intros i j Hi Hj. now rewrite H3.
  - intros i j N. now rewrite H4.
  - intros R i Hi. destruct (dget eq2 d (i, i)) as [v|] eqn:E; [eapply H5; eauto|apply conj_0].
Qed.
Lemma su2_hnil : su2_hnew [].
Proof. split; [constructor|]. split; [intros k []|]. repeat split; auto. discriminate. Qed.
Lemma su2_hadd : forall self new, su2_hself self -> su2_hnew new -> su2_hself (dadd K eq2 self new).
Proof.
  intros self new (S1 & S2 & S3 & S4 & S5) N. pose proof (su2_hnew_self _ N) as (N1 & N2 & N3 & N4 & N5). unfold val2 in *.
  split; [now apply dadd_nodup|]. split; [intros k Hk; apply dadd_keys in Hk; destruct Hk; auto|].
  unfold val2. repeat split; intros; rewrite !dadd_val by auto.
  - rewrite S3, N3; auto.
  - rewrite S4, N4 by auto. ring.
  - rewrite conj_add, S5, N5; auto.
Qed.
Lemma su2_hchange : forall self new, su2_hself self -> su2_hnew new -> su2_hself (fst (dchange K isz eq2 true self new)).
Proof.
  intros self new (S1 & S2 & S3 & S4 & S5) (N1 & N2 & N3 & N4 & N5). unfold val2 in *.
  split; [now apply dchange_nodup|]. split; [intros k Hk; apply dchange_keys in Hk; destruct Hk; auto|].
  unfold val2. repeat split; intros; rewrite !dchange_val by auto.
  - rewrite N3, S3; auto.
  - rewrite N4; auto.
  - destruct (dget eq2 new (i, i)) as [v|] eqn:E; auto. eapply N5; eauto.
Qed.
Theorem hsingle_good : forall d, su2_hself d -> good (hh = true /\ RD) (osum C (hop_op K hh) d).
Proof.
  intros d (S1 & S2 & S3 & S4 & S5).
  apply (good_ext _ (osum C (fun k => oplus C (hop_op K hh (k, val2 d k)) (hop_op K hh (((fst k + nss)%nat, (snd k + nss)%nat), val2 d k))) (list_prod (seq 0 nss) (seq 0 nss)))).
  - intros f s Ls. rewrite !osum_at.
    transitivity (rsum (fun k => hop_op K hh (k, val2 d k) f s) (list_prod (seq 0 (nss + nss)) (seq 0 (nss + nss)))).
    + rewrite !rsum_prod. rewrite seq_double. apply rsum_ext. intros i Hi. rewrite !seq_double, <- rsum_plus. apply rsum_ext. intros j Hj.
      apply in_seq in Hi, Hj. unfold oplus. cbn [fst snd].
      assert (Z : forall a b, Nat.ltb a nss <> Nat.ltb b nss -> hop_op K hh ((a, b), val2 d (a, b)) f s = 0) by (intros a b N; rewrite S4 by auto; apply hop_zero).
      rewrite (Z i (j + nss)%nat), (Z (i + nss)%nat j).
      * rewrite S3 by lia. ring.
      * rewrite (proj2 (Nat.ltb_ge _ _)), (proj2 (Nat.ltb_lt _ _)) by lia. discriminate.
      * rewrite (proj2 (Nat.ltb_lt i nss)), (proj2 (Nat.ltb_ge (j + nss) nss)) by lia. discriminate.
    + unfold val2. rewrite <- (total_range K eq2 (fun q v => hop_op K hh (q, v) f s) (fun q => hop_zero K hh q f s) (list_prod (seq 0 (nss + nss)) (seq 0 (nss + nss))) d).
      * apply rsum_ext. intros [q v] _. reflexivity.
      * apply list_prod_nodup; apply seq_NoDup.
      * exact S1.
      * intros [a b] Hq. apply S2 in Hq. apply in_prod_iff. rewrite !in_seq. unfold rng2, lev in Hq. cbn [fst snd] in Hq. lia.
  - apply good_sum. intros [i j] Hk. apply in_prod_iff in Hk. rewrite !in_seq in Hk. cbn [fst snd].
    apply (good_imp (hh = true /\ (i = j -> conj (val2 d (i, j)) = val2 d (i, j)))); [|apply two_good; lia].
    intros (E1 & E2). split; auto. intros <-. apply S5; auto. lia.
Qed.
Lemma hs_su2 : forall az x, wf_input K x -> orbitals K (hs_orb nss) (named_hs K isz hh az x) ->
  (RD -> forall i v, named_hs K isz hh az x (i, i) = Some v -> conj v = v) -> su2_hnew (make_hsingle_dict K isz hh true nss az x).
Proof.
  intros az x W O RL. destruct (hs_new_sym K isz nss hh az x W O) as (N1 & N2 & _). split; [exact N1|]. split; [exact N2|].
  assert (G : forall k, dget eq2 (make_hsingle_dict K isz hh true nss az x) k = both_spins K nss (named_hs K isz hh az x) k).
  { intros k. rewrite hs_dict_get by auto. reflexivity. }
  repeat split.
  - intros i j Hi Hj. rewrite !G. unfold both_spins. rewrite (proj2 (Nat.ltb_ge (i + nss) nss)), (proj2 (Nat.ltb_lt i nss)), (proj2 (Nat.ltb_lt j nss)) by lia.
    cbn [andb]. rewrite !(proj2 (Nat.leb_le nss _)) by lia. cbn [andb]. f_equal. f_equal; lia.
  - intros i j N. rewrite G. unfold both_spins. destruct (Nat.ltb_spec i nss), (Nat.ltb_spec j nss); try congruence; cbn [andb].
    + rewrite (proj2 (Nat.leb_gt nss i)) by lia. reflexivity.
    + rewrite (proj2 (Nat.leb_gt nss j)) by lia. now rewrite Bool.andb_false_r.
  - intros R i v Hi E. rewrite G in E. unfold both_spins in E. rewrite !(proj2 (Nat.ltb_lt i nss)) in E by lia. cbn [andb] in E. now apply (RL R i).
Qed.
End DictH.

(** *** histories *)
Variables (herm_hs herm_c m_less_n ham_ssq_q : bool).
Hypothesis HM : herm_c = true -> m_less_n = true.
(** the coulomb elements named by the user in the whole history *)
Definition arg_keys (a : arg K key4) : list key4 := match a with AFresh _ _ x => map fst (rows_of K x) | _ => [] end.
Definition op_keys (o : qop K) : list key4 := match o with QAdd _ _ cl => arg_keys cl | QChange _ _ cl => arg_keys cl | QRemove _ _ => [] end.
Definition history_keys (cl : input key4 C) (os : list (qop K)) : list key4 := map fst (rows_of K cl) ++ flat_map op_keys os.
(** real diagonal elements *)
Definition hs_real (az : bool) (x : input (nat * nat) C) : Prop := forall i v, named_hs K isz herm_hs az x (i, i) = Some v -> conj v = v.
Definition cl_real (x : input key4 C) : Prop := forall q v, In (q, v) (rows_of K x) -> density q = true -> conj v = v.
Definition op_real (o : qop K) : Prop :=
  match o with
  | QAdd _ hs cl => (forall x, hs = AFresh _ _ x -> hs_real false x) /\ (forall x, cl = AFresh _ _ x -> cl_real x)
  | QChange _ hs cl => (forall x, hs = AFresh _ _ x -> hs_real true x) /\ (forall x, cl = AFresh _ _ x -> cl_real x)
  | QRemove _ _ => True
  end.
(** the same two-electron element is named in one way only, and in the order asked for in qdot.py 480 *)
Definition keys_ok (ks : list key4) : Prop :=
  (m_less_n = true -> forall q, In q ks -> same4 q <> q -> ~ In (same4 q) ks) /\ (herm_c = true -> forall q, In q ks -> ordered q).
Local Notation hsok := (hs_arg_ok K isz nss herm_hs).
Local Notation clok := (cl_arg_ok K nss herm_c).
Theorem history_good : forall (RD : Prop) si hs cl os q0 q,
  wf_input K hs -> orbitals K (hs_orb nss) (named_hs K isz herm_hs false hs) -> cl_input_ok K nss herm_c cl -> Forall (spin_op_ok K isz nss herm_hs herm_c) os ->
  keys_ok (history_keys cl os) -> (RD -> hs_real false hs /\ cl_real cl /\ Forall op_real os) ->
  qd_init K isz herm_hs herm_c m_less_n ham_ssq_q true nss si hs cl = Some q0 ->
  qd_run K isz herm_hs herm_c m_less_n ham_ssq_q true nss q0 os = Some q ->
  good (herm_hs = true /\ herm_c = true /\ RD) (full_op K herm_hs herm_c m_less_n q).
Proof.
  intros RD si hs cl os q0 q W O CO HO (KO & KC) RL E0 E.
  set (P := fun k : key4 => In k (history_keys cl os)).
  set (S := fun q : QD K => su2_hself RD (q_hs K q) /\ su2_self herm_c m_less_n P RD (q_cl K q)).
  pose proof KO as KO1. pose proof KC as KC1.
  change (m_less_n = true -> forall q, P q -> same4 q <> q -> ~ P (same4 q)) in KO1. change (herm_c = true -> forall q, P q -> ordered q) in KC1.
  assert (S0 : S q0).
  { unfold qd_init, init_hamiltonian in E0. destruct (ham_add _ _ _ _ _ _ _ _ _) as [h|]; [|discriminate]. injection E0 as <-.
    split; cbn [q_hs q_cl].
    - apply su2_hnew_self, hs_su2; auto. intros R. now apply RL.
    - apply su2_new_self; auto. apply cl_su2; auto.
      + intros k Hk. apply in_app_iff. now left.
      + intros R. now apply RL. }
  assert (SQ : S q).
  { assert (HP : forall o, In o os -> forall k, In k (op_keys o) -> P k).
    { intros o Ho k Hk. apply in_app_iff. right. apply in_flat_map. eauto. }
    assert (HR : RD -> Forall op_real os) by (intros R; now apply RL).
    change (m_less_n = true -> forall q, P q -> same4 q <> q -> ~ P (same4 q)) in KO.
    clear E0 RL KC. clearbody P. revert q0 S0 E HP HR. induction HO as [|o os Ho _ IH]; intros q0 S0 E HP HR; cbn in E; [now injection E as <-|].
    destruct (qd_step _ _ _ _ _ _ _ _ q0 o) as [q1|] eqn:E1; [|discriminate].
    assert (S1 : S q1).
    { clear IH E. specialize (HP o (or_introl eq_refl)). assert (HR1 : RD -> op_real o) by (intros R; now apply Forall_inv in HR).
      destruct S0 as (A1 & A2).
      assert (NH : forall az a self, hsok az a -> (RD -> forall x, a = AFresh _ _ x -> hs_real az x) -> su2_hnew RD (hs_arg K isz herm_hs true nss self az a)).
      { intros az [|x|] self X Y; cbn [hs_arg]; [apply su2_hnil|destruct X; apply hs_su2; auto; intros R; now apply Y|destruct X]. }
      assert (NC : forall a self, clok a -> (forall k, In k (arg_keys a) -> P k) -> (RD -> forall x, a = AFresh _ _ x -> cl_real x) ->
        su2_new herm_c m_less_n P RD (cl_arg K isz herm_c m_less_n true nss self a)).
      { intros [|x|] self X Y Z; cbn [cl_arg]; [apply su2_nil; auto|apply cl_su2; auto; intros R; now apply Z|destruct X]. }
      destruct o as [hs' cl'|hs' cl'|lst]; cbn [qd_step] in E1; cbn [op_keys op_real] in HP, HR1.
      - destruct Ho as (O1 & O2). unfold qd_add in E1. destruct (ham_add _ _ _ _ _ _ _ _ _) as [h|]; [|discriminate]. injection E1 as <-.
        split; cbn [q_hs q_cl]; [apply su2_hadd; auto; apply NH; auto|apply su2_add; auto; apply NC; auto]; intros R; now apply HR1.
      - destruct Ho as (O1 & O2). unfold qd_change in E1.
        assert (C1 : su2_hself RD (fst (dchange K isz eq2 true (q_hs K q0) (hs_arg K isz herm_hs true nss (q_hs K q0) true hs')))).
        { apply su2_hchange; auto. apply NH; auto. intros R. now apply HR1. }
        assert (C2 : su2_self herm_c m_less_n P RD (fst (dchange K isz eq4 true (q_cl K q0) (cl_arg K isz herm_c m_less_n true nss (q_cl K q0) cl')))).
        { apply su2_change; auto. apply NC; auto. intros R. now apply HR1. }
        destruct (dchange K isz eq2 true (q_hs K q0) _) as [hs1 dh]. destruct (dchange K isz eq4 true (q_cl K q0) _) as [cl1 dc].
        destruct (ham_add _ _ _ _ _ _ _ _ _) as [h|]; [|discriminate]. injection E1 as <-. split; assumption.
      - unfold qd_remove in E1. destruct (remove_fock_states (q_si K q0) lst) as [si1|]; [|discriminate].
        unfold init_hamiltonian in E1. destruct (ham_add _ _ _ _ _ _ _ _ _) as [h|]; [|discriminate]. injection E1 as <-. split; assumption. }
    apply (IH q1); auto.
    - intros o' H. apply HP. now right.
    - intros R. apply HR in R. now apply Forall_inv_tail in R. }
  destruct SQ as (A1 & A2). apply good_plus.
  - apply (good_imp (herm_c = true /\ RD)); [tauto|]. apply (coulomb_good herm_c m_less_n P RD); auto.
  - apply (good_imp (herm_hs = true /\ RD)); [tauto|]. now apply hsingle_good.
Qed.

(** C54 *)
Theorem C54_commutes : forall si hs cl os q0 q,
  wf_input K hs -> orbitals K (hs_orb nss) (named_hs K isz herm_hs false hs) -> cl_input_ok K nss herm_c cl -> Forall (spin_op_ok K isz nss herm_hs herm_c) os ->
  keys_ok (history_keys cl os) ->
  qd_init K isz herm_hs herm_c m_less_n ham_ssq_q true nss si hs cl = Some q0 ->
  qd_run K isz herm_hs herm_c m_less_n ham_ssq_q true nss q0 os = Some q ->
  forall f s, length s = (nss + nss)%nat ->
    spin_raise C nss (full_op K herm_hs herm_c m_less_n q f) s = full_op K herm_hs herm_c m_less_n q (spin_raise C nss f) s /\
    spin_lower C nss (full_op K herm_hs herm_c m_less_n q f) s = full_op K herm_hs herm_c m_less_n q (spin_lower C nss f) s.
Proof.
  intros si hs cl os q0 q W O CO HO KO E0 E. refine (proj1 (history_good False si hs cl os q0 q W O CO HO KO _ E0 E)). intros [].
Qed.
Theorem C54_hermitian : forall si hs cl os q0 q,
  wf_input K hs -> orbitals K (hs_orb nss) (named_hs K isz herm_hs false hs) -> cl_input_ok K nss herm_c cl -> Forall (spin_op_ok K isz nss herm_hs herm_c) os ->
  keys_ok (history_keys cl os) -> herm_hs = true -> herm_c = true -> hs_real false hs -> cl_real cl -> Forall op_real os ->
  qd_init K isz herm_hs herm_c m_less_n ham_ssq_q true nss si hs cl = Some q0 ->
  qd_run K isz herm_hs herm_c m_less_n ham_ssq_q true nss q0 os = Some q ->
  forall s t, length s = (nss + nss)%nat -> length t = (nss + nss)%nat ->
    mel C (full_op K herm_hs herm_c m_less_n q) t s = conj (mel C (full_op K herm_hs herm_c m_less_n q) s t).
Proof.
  intros si hs cl os q0 q W O CO HO KO HH HC R1 R2 R3 E0 E. refine (proj2 (history_good True si hs cl os q0 q W O CO HO KO _ E0 E) _); auto.
Qed.
End Total.
Print Assumptions C54_commutes.
Print Assumptions C54_hermitian.

(** *** examples: the history of C43, two orbitals *)
Example C54_case_hyps :
  wf_input ZRing s_hs /\ orbitals ZRing (hs_orb 2) (named_hs ZRing zisz true false s_hs) /\ cl_input_ok ZRing 2 true s_cl /\
  Forall (spin_op_ok ZRing zisz 2 true true) s_ops /\ keys_ok true true (history_keys ZRing s_cl s_ops) /\
  hs_real ZRing zisz true false s_hs /\ cl_real ZRing s_cl /\ Forall (op_real ZRing zisz true) s_ops.
Proof.
  destruct C43_case_hyps as (A & B & D & E). repeat (split; [assumption|]).
  assert (ROW : forall (zc : bool) (l : list ((nat * nat) * Cx ZRing)), (forall i v, In ((i, i), v) l -> conj v = v) ->
    hs_real ZRing zisz true zc (InList l) /\ hs_real ZRing zisz true zc (InDict l)).
  { intros zc l H. assert (G : forall i v, row_of ZRing eq2 l (i, i) = Some v -> conj v = v).
    { intros i v X. rewrite row_dget in X. apply dget_in in X. apply in_rev in X. now apply (H i). }
    split; intros i v X; apply (G i v); exact X. }
  assert (CL : forall l : list (key4 * Cx ZRing), forallb (fun e => negb (density (fst e)) || (Z.eqb (@im ZRing (snd e)) 0))%bool l = true ->
    cl_real ZRing (InList l) /\ cl_real ZRing (InDict l)).
  { intros l H. rewrite forallb_forall in H. split; intros q [a b] Hq DE; specialize (H _ Hq); cbn [fst snd] in H; rewrite DE in H; cbn [negb orb im] in H;
      apply Z.eqb_eq in H; cbn [im] in H; subst b; reflexivity. }
  split; [|split; [|split]].
  - split; intros _ q Hq; cbn in Hq.
    + intros N Hq'. cbn in Hq'. repeat (destruct Hq as [<-|Hq]; [apply N; repeat (destruct Hq' as [X|Hq']; [first [discriminate X|reflexivity]|]); now destruct Hq'|]). destruct Hq.
    + repeat (destruct Hq as [<-|Hq]; [unfold ordered; cbn; try lia|]). destruct Hq.
  - apply ROW. intros i v [X|[X|[]]]; injection X as; subst; try reflexivity; lia.
  - apply CL. reflexivity.
  - constructor; [|constructor; [|constructor; [exact I|constructor]]]; split; intros x X; try discriminate X; injection X as <-.
    + apply ROW. intros i v [X|[]]; injection X as; subst; reflexivity.
    + apply ROW. intros i v [X|[]]; injection X as; subst; reflexivity.
    + apply CL. reflexivity.
Qed.

(** *** what does not hold *)
Definition one_cl (nss : nat) (l : list (key4 * Cx ZRing)) (os : list (qop ZRing)) : option (QD ZRing) :=
  match qd_init ZRing zisz true true true false true nss (si_init (nss + nss) "charge"%string) (InList []) (InList l) with
  | None => None | Some q => qd_run ZRing zisz true true true false true nss q os end.
(** With herm_c and m_less_n, elements given with k < l instead of k > l: for equal spins the Hermitian conjugate is not added,
    for opposite spins it is.  The Hamiltonian is neither spin symmetric nor Hermitian, and nothing is raised. *)
Theorem C54_unordered_refuted :
  exists q, one_cl 3 [((0, 1, 0, 2), ZC 1 0)] [] = Some q /\ let H := full_op ZRing true true true q in
    (let f := basis (Cx ZRing) [false; false; false; true; true; false] in let s := [false; false; true; true; false; false] in
     spin_raise (Cx ZRing) 3 (H f) s <> H (spin_raise (Cx ZRing) 3 f) s) /\
    (let s := [true; true; false; false; false; false] in let t := [true; false; true; false; false; false] in
     mel (Cx ZRing) H s t <> conj (mel (Cx ZRing) H t s)).
Proof. eexists. split; [reflexivity|]. split; vm_compute; discriminate. Qed.
(** An exchange element with m > n: for equal spins the element and its conjugate, for opposite spins one of them. *)
Theorem C54_exchange_order_refuted :
  exists q, one_cl 2 [((1, 0, 1, 0), ZC 4 0)] [] = Some q /\ let H := full_op ZRing true true true q in
    let f := basis (Cx ZRing) [false; false; true; true] in let s := [false; true; true; false] in
    spin_raise (Cx ZRing) 2 (H f) s <> H (spin_raise (Cx ZRing) 2 f) s.
Proof. eexists. split; [reflexivity|]. vm_compute; discriminate. Qed.
(** The same element created as (0, 1, 1, 0) and changed as (1, 0, 0, 1): opposite spins get the new value, equal spins the sum. *)
Theorem C54_two_names_refuted :
  exists q, one_cl 2 [((0, 1, 1, 0), ZC 4 0)] [QChange ZRing (ANone ZRing _) (AFresh ZRing _ (InDict [((1, 0, 0, 1), ZC 2 0)]))] = Some q /\
    let H := full_op ZRing true true true q in
    let f := basis (Cx ZRing) [false; false; true; true] in let s := [false; true; true; false] in
    spin_raise (Cx ZRing) 2 (H f) s <> H (spin_raise (Cx ZRing) 2 f) s.
Proof. eexists. split; [reflexivity|]. vm_compute; discriminate. Qed.
