(** C55: the off-diagonal corrections of the RTD approach eliminate the coherences of the 1vN master equation. *)
From Coq Require Import String List Arith Lia ZArith Bool Permutation Ring.
From Verif Require Import Base Bits Indexing IndexingProofs RemoveProofs Binom SsqProofs Qn PropIndexing DMIndex DMIndexProofs DMReach PropDMIndex
  CRing Layout Coherences Kernel KernelProofs PauliProofs CohProofs CohKernels CohCurrents PropKernel MatrixFree PropSolve MasterEq PropVN2
  RTDK RTDNd PropRTD MasterUnits.
Import ListNotations.
Open Scope nat_scope.
Local Notation length := List.length.

Section C55.
Variable K : CRing.
Local Notation C := (Cx K).
Local Open Scope rng_scope.
Add Ring KrC55 : (rth K).
Add Ring CrC55 : (rth (Cx K)).
Variables (n : nat) (name : string) (si : SI) (L : Lay).
Hypotheses (Hn : (1 <= n)%nat) (Hix : ix_of name n <> IxSsq) (SY : system n name si L).
Variables (nl : nat) (E : nat -> K) (T : nat -> nat -> nat -> C) (pi : K) (F Fm ph : nat -> K -> K) (inv : K -> K).
Hypothesis HT : hermitian K T.
Let LO : layout L := system_layout n name si L Hn Hix SY.
Let CH := system_charge n name si L Hn Hix SY.
Local Notation N := (charge_of si).
Local Notation SS := (cons_states L).
Local Notation lds := (leads nl).
Local Notation np := (ly_npauli L).
Local Notation here := (here L).

(** the amplitudes of the 1vN master equation (wide band): an electron enters, a hole enters *)
Definition A0 (l : nat) (x : K) : C := mkC (- ph l x) (- (pi * F l x)).
Definition A1 (l : nat) (x : K) : C := mkC (- ph l x) (pi * Fm l x).
Definition amp0 (l s t : nat) : C := A0 l (E s - E t).
Definition amp1 (l s t : nat) : C := A1 l (E s - E t).
Local Notation lead := (vn1_lead K SS N T amp0 amp1).
Local Notation unit := (unit_elem K SS N T amp0 amp1).

(** every coherence of the considered states takes part *)
Definition all_kept : Prop := forall s t c, (0 <= c)%Z -> In s (states L c) -> In t (states L c) -> ind0 L s t c <> (-1)%Z.
Hypothesis AK : all_kept.

(** *** Indices *)
Definition prs : list (nat * nat * Z) :=
  flat_map (fun c => flat_map (fun b => flat_map (fun bp => if Nat.eqb b bp then [] else [(b, bp, c)]) (states L c)) (states L c)) (charges L).
Lemma prs_in : forall s t c, In (s, t, c) prs <-> here s c /\ here t c /\ s <> t.
Proof.
  intros s t c. unfold prs, PropRTD.here. rewrite in_flat_map. split.
  - intros (c' & Hc & H). apply charges_in in Hc. apply in_flat_map in H. destruct H as (b & Hb & H). apply in_flat_map in H. destruct H as (bp & Hbp & H).
    destruct (Nat.eqb_spec b bp); [destruct H|]. destruct H as [H|[]]. injection H as -> -> ->. repeat split; auto; lia.
  - intros ((Hc & Hs) & (_ & Ht) & Ne). exists c. split; [apply charges_in; split; auto; apply (lo_range L LO c s); auto|].
    apply in_flat_map. exists s. split; auto. apply in_flat_map. exists t. split; auto. destruct (Nat.eqb_spec s t); [easy|now left].
Qed.
Lemma prs_single : forall (f : nat * nat * Z -> C) s t c, In (s, t, c) prs ->
  (forall x, In x prs -> x <> (s, t, c) -> f x = 0) -> rsum f prs = f (s, t, c).
Proof.
  intros f s t c Hin Z0. pose proof (proj1 (prs_in s t c) Hin) as ((Hc & Hs) & (_ & Ht) & Ne). unfold prs. rewrite (rsum_flat_map C).
  rewrite (rsum_single C _ _ _ c).
  - rewrite (rsum_flat_map C), (rsum_single C _ _ _ s).
    + rewrite (rsum_flat_map C), (rsum_single C _ _ _ t).
      * destruct (Nat.eqb_spec s t); [easy|]. cbn [rsum]. ring.
      * now apply (lo_nodup L LO).
      * auto.
      * intros y Hy Ny. destruct (Nat.eqb_spec s y); cbn [rsum]; auto. rewrite (Z0 (s, y, c)); [ring| |congruence]. apply prs_in. repeat split; auto.
    + now apply (lo_nodup L LO).
    + auto.
    + intros y Hy Ny. rewrite (rsum_flat_map C). apply (rsum_0 C). intros z Hz. destruct (Nat.eqb_spec y z); cbn [rsum]; auto.
      rewrite (Z0 (y, z, c)); [ring| |congruence]. apply prs_in. repeat split; auto.
  - apply charges_nodup.
  - apply charges_in. split; auto. apply (lo_range L LO c s); auto.
  - intros c' Hc' Nc. apply charges_in in Hc'. rewrite (rsum_flat_map C). apply (rsum_0 C). intros y Hy. rewrite (rsum_flat_map C). apply (rsum_0 C). intros z Hz.
    destruct (Nat.eqb_spec y z); cbn [rsum]; auto. rewrite (Z0 (y, z, c')); [ring| |congruence]. apply prs_in. repeat split; auto; lia.
Qed.

Lemma nd_range : forall s t c, In (s, t, c) prs -> (0 <= nd_ind L s t c < Z.of_nat (n2 L))%Z.
Proof.
  intros s t c H. apply prs_in in H. destruct H as ((Hc & Hs) & (_ & Ht) & Ne). unfold nd_ind, n2. destruct (Nat.eqb_spec s t); [easy|].
  destruct (lo_off L LO s t c) as (_ & H); auto. destruct (H (AK s t c Hc Hs Ht)) as (R & _). destruct (t <? s); lia.
Qed.
Lemma nd_inj : forall s t c s' t' c', In (s, t, c) prs -> In (s', t', c') prs -> nd_ind L s t c = nd_ind L s' t' c' -> (s, t, c) = (s', t', c').
Proof.
  intros s t c s' t' c' H H'. apply prs_in in H, H'. destruct H as ((Hc & Hs) & (_ & Ht) & Ne), H' as ((Hc' & Hs') & (_ & Ht') & Ne').
  unfold nd_ind. destruct (Nat.eqb_spec s t), (Nat.eqb_spec s' t'); try easy.
  destruct (lo_off L LO s t c) as (_ & R); auto. destruct (R (AK s t c Hc Hs Ht)) as (R1 & _).
  destruct (lo_off L LO s' t' c') as (_ & R'); auto. destruct (R' (AK s' t' c' Hc' Hs' Ht')) as (R1' & _).
  destruct (Nat.ltb_spec t s), (Nat.ltb_spec t' s'); intros EQ; try lia;
    destruct (lo_inj L LO s t c s' t' c' Hc Hc' Hs Ht Hs' Ht' ltac:(lia) (AK s t c Hc Hs Ht)) as (-> & [[-> ->]|[-> ->]]); auto; lia.
Qed.
Lemma diag_inj : forall b c b' c', here b c -> here b' c' -> ind0 L b b c = ind0 L b' b' c' -> b = b' /\ c = c'.
Proof.
  intros b c b' c' (Hc & Hb) (Hc' & Hb') EQ. destruct (lo_inj L LO b b c b' b' c' Hc Hc' Hb Hb Hb' Hb' EQ (AK b b c Hc Hb Hb)) as (-> & [[-> _]|[-> _]]); auto.
Qed.

(** *** The updates as complex numbers *)
Definition cv (v : K * K) : C := mkC (fst v) (snd v).
Definition hitc (x : nat * (Z * Z)) (e : dn_el K) : C := if eq3 x (fst e) then cv (snd e) else 0.
Lemma parts : forall us x, mkC (run_updates eq3 (map (fun e => (fst e, fst (snd e))) us) zeros x)
                               (run_updates eq3 (map (fun e => (fst e, snd (snd e))) us) zeros x) = rsum (hitc x) us.
Proof.
  intros us x. rewrite !run_updates_sum, !rsum_map. cbn [fst snd].
  induction us as [|e us IH]; cbn [rsum]; [unfold zeros; apply cplx_eq; simpl; apply (Radd_0_l (rth K))|].
  rewrite <- IH. unfold hitc, cv, zeros. clear IH.
  match goal with |- context [0 + rsum ?f us] => generalize (rsum f us) end. match goal with |- context [rsum ?f us] => generalize (rsum f us) end.
  intros u v. destruct (eq3 x (fst e)); apply cplx_eq; simpl; ring.
Qed.

(** one call for every lead *)
Lemma hit_leads : forall l i j i0 j0 (g : nat -> K * K), (l < nl)%nat ->
  rsum (hitc (l, (i, j))) (map (fun l' => ((l', (i0, j0)), g l')) lds) = if Z.eqb i i0 then if Z.eqb j j0 then cv (g l) else 0 else 0.
Proof.
  intros l i j i0 j0 g Hl. rewrite rsum_map.
  rewrite (rsum_single C _ _ _ l).
  - unfold hitc. cbn [fst snd]. destruct (eq3 _ _) as [e|e].
    + injection e as <- <-. now rewrite !Z.eqb_refl.
    + destruct (Z.eqb_spec i i0); auto. destruct (Z.eqb_spec j j0); auto. congruence.
  - apply seq_NoDup.
  - apply in_seq. lia.
  - intros l' _ Nl. unfold hitc. cbn [fst snd]. destruct (eq3 _ _) as [e|e]; auto. congruence.
Qed.

(** jump, stay in terms of the amplitudes *)
Lemma cv_jump_up : forall t2 l x y, cv (jump K pi t2 (F l x + F l y) (dphi K ph 1 l x y)) =
  t2 * (- Ci K * (conj (A0 l x) - A0 l y)).
Proof. intros [a b] l x y. unfold cv, jump, dphi, Ci, A0, A1. apply cplx_eq; simpl; ring. Qed.
Lemma cv_jump_dn : forall t2 l x y, cv (jump K pi t2 (Fm l x + Fm l y) (dphi K ph (- (1)) l x y)) =
  t2 * (- Ci K * (A1 l y - conj (A1 l x))).
Proof. intros [a b] l x y. unfold cv, jump, dphi, Ci, A0, A1. apply cplx_eq; simpl; ring. Qed.
Lemma cv_stay1_up : forall t2 l x, cv (stay1 K pi t2 (F l x) (1 * ph l x)) = - Ci K * (t2 * A0 l x).
Proof. intros [a b] l x. unfold cv, stay1, Ci, A0, A1. apply cplx_eq; simpl; ring. Qed.
Lemma cv_stay2_up : forall t2 l x, cv (stay2 K pi t2 (F l x) (1 * ph l x)) = - Ci K * - (t2 * conj (A0 l x)).
Proof. intros [a b] l x. unfold cv, stay2, Ci, A0, A1. apply cplx_eq; simpl; ring. Qed.
Lemma cv_stay1_dn : forall t2 l x, cv (stay1 K pi t2 (Fm l x) (- (1) * ph l x)) = - Ci K * - (t2 * A1 l x).
Proof. intros [a b] l x. unfold cv, stay1, Ci, A0, A1. apply cplx_eq; simpl; ring. Qed.
Lemma cv_stay2_dn : forall t2 l x, cv (stay2 K pi t2 (Fm l x) (- (1) * ph l x)) = - Ci K * (t2 * conj (A1 l x)).
Proof. intros [a b] l x. unfold cv, stay2, Ci, A0, A1. apply cplx_eq; simpl; ring. Qed.

Lemma here_SS : forall b c, here b c -> In b SS.
Proof. intros b c (Hc & Hb). now apply (cons_in L LO c b). Qed.
Lemma here_N : forall b c, here b c -> Z.of_nat (N b) = c.
Proof. intros b c (Hc & Hb). rewrite (CH c b) by auto. lia. Qed.
Lemma here_range : forall b c, here b c -> (0 <= c < Z.of_nat (ly_ncharge L))%Z.
Proof. intros b c (Hc & Hb). pose proof (lo_range L LO c b Hc Hb). lia. Qed.
Lemma here_up : forall b c a, here b c -> In a (states L (c + 1)) -> here a (c + 1).
Proof. intros b c a (Hc & _) Ha. split; auto. lia. Qed.
Lemma here_dn : forall b c a, here b c -> In a (states L (c - 1)) -> here a (c - 1).
Proof. intros b c a H Ha. split; auto. exact (below n name si L Hn Hix SY c a (proj1 H) Ha). Qed.
Lemma T_conj : forall l s t, conj (T l s t) = T l t s.
Proof. intros. apply HT. Qed.

Lemma sum_g0 : forall (h : nat -> C) l q c, here q c ->
  rsum (fun u => h u * g0 K N amp0 amp1 l u q) SS =
  rsum (fun x => h x * A0 l (E x - E q)) (states L (c + 1)) + rsum (fun x => h x * conj (A1 l (E q - E x))) (states L (c - 1)).
Proof.
  intros h l q c (Hc & Hq). rewrite <- (sum_up1 K L LO N CH q c) by auto. rewrite <- (sum_up2 K L LO N CH q c) by auto.
  rewrite <- (rsum_plus C). apply (rsum_ext C). intros u _. unfold g0, amp0, amp1. rewrite (Nat.eqb_sym (S (N u))).
  destruct (N u =? S (N q))%nat, (N q =? S (N u))%nat; ring.
Qed.
Lemma sum_g1 : forall (h : nat -> C) l p c, here p c ->
  rsum (fun u => h u * g1 K N amp0 amp1 l p u) SS =
  rsum (fun x => h x * conj (A0 l (E x - E p))) (states L (c + 1)) + rsum (fun x => h x * A1 l (E p - E x)) (states L (c - 1)).
Proof.
  intros h l q c (Hc & Hq). rewrite <- (sum_up1 K L LO N CH q c) by auto. rewrite <- (sum_up2 K L LO N CH q c) by auto.
  rewrite <- (rsum_plus C). apply (rsum_ext C). intros u _. unfold g1, amp0, amp1. rewrite (Nat.eqb_sym (S (N q))).
  destruct (N u =? S (N q))%nat, (N q =? S (N u))%nat; ring.
Qed.
Lemma g0_at : forall l u cu v c, here u cu -> here v c ->
  g0 K N amp0 amp1 l u v = if Z.eqb cu (c + 1) then A0 l (E u - E v) else if Z.eqb cu (c - 1) then conj (A1 l (E v - E u)) else 0.
Proof.
  intros l u cu v c Hu Hv. pose proof (here_N _ _ Hu). pose proof (here_N _ _ Hv). unfold g0, amp0, amp1.
  destruct (Nat.eqb_spec (N u) (S (N v))), (Nat.eqb_spec (S (N u)) (N v)), (Z.eqb_spec cu (c + 1)), (Z.eqb_spec cu (c - 1)); try lia; ring.
Qed.
Lemma g1_at : forall l u cu v c, here u cu -> here v c ->
  g1 K N amp0 amp1 l u v = if Z.eqb cu (c + 1) then A1 l (E u - E v) else if Z.eqb cu (c - 1) then conj (A0 l (E v - E u)) else 0.
Proof.
  intros l u cu v c Hu Hv. pose proof (here_N _ _ Hu). pose proof (here_N _ _ Hv). unfold g1, amp0, amp1.
  destruct (Nat.eqb_spec (N u) (S (N v))), (Nat.eqb_spec (S (N u)) (N v)), (Z.eqb_spec cu (c + 1)), (Z.eqb_spec cu (c - 1)); try lia; ring.
Qed.

(** picking one state of a block *)
Lemma pick_block : forall z b cb (g : nat -> C), here b cb -> (-1 <= z <= Z.of_nat (ly_ncharge L))%Z ->
  rsum (fun a => if Nat.eqb a b then g a else 0) (states L z) = if Z.eqb cb z then g b else 0.
Proof.
  intros z b cb g H Hz. destruct (Z.eqb_spec cb z) as [<-|Ne].
  - destruct H. apply (rsum_if_nat C g); auto. now apply (lo_nodup L LO).
  - apply (rsum_0 C). intros a Ha. destruct (Nat.eqb_spec a b) as [->|]; auto. exfalso. apply Ne.
    destruct (Z.eq_dec z (-1)) as [->|]; [rewrite (lo_below L LO) in Ha; destruct Ha|].
    destruct H as (Hc & Hb). apply (lo_same L LO cb z b); auto. lia.
Qed.
Lemma row_test : forall b cb a c (x : C), here b cb -> here a c -> (if Z.eqb (ind0 L b b cb) (ind0 L a a c) then x else 0) = if Nat.eqb a b then x else 0.
Proof.
  intros b cb a c x Hb Ha. destruct (Z.eqb_spec (ind0 L b b cb) (ind0 L a a c)) as [e|e].
  - destruct (diag_inj _ _ _ _ Hb Ha e) as (-> & _). now rewrite Nat.eqb_refl.
  - destruct (Nat.eqb_spec a b) as [->|]; auto. exfalso. apply e. f_equal. destruct Hb, Ha. now apply (lo_same L LO cb c b).
Qed.
Lemma top_nil : forall c, (c =? Z.of_nat (ly_ncharge L) - 1)%Z = true -> states L (c + 1) = [].
Proof. intros c H. apply Z.eqb_eq in H. replace (c + 1)%Z with (Z.of_nat (ly_ncharge L)) by lia. apply (lo_above L LO). Qed.
Lemma bottom_nil : forall c, (c =? 0)%Z = true -> states L (c - 1) = [].
Proof. intros c H. apply Z.eqb_eq in H. subst. apply (lo_below L LO). Qed.

Lemma dn_value : forall l b cb s t c, (l < nl)%nat -> here b cb -> In (s, t, c) prs ->
  rsum (hitc (l, (ind0 L b b cb, nd_ind L s t c))) (dn_col K L nl E T pi F Fm ph s t c) = unit l b b s t.
Proof.
  intros l b cb s t c Hl Hb Hst. apply prs_in in Hst. destruct Hst as (Hs & Ht & Ne). pose proof (here_range _ _ Hs) as Rc.
  unfold dn_col. cbv zeta. rewrite !(rsum_app C).
  set (top := (c =? Z.of_nat (ly_ncharge L) - 1)%Z). set (bottom := (c =? 0)%Z).
  transitivity (
    (if Z.eqb cb (c + 1) then - Ci K * (T l b s * T l t b * (conj (A0 l (E b - E s)) - A0 l (E b - E t))) else 0) +
    ((if Z.eqb cb (c - 1) then - Ci K * (T l b s * T l t b * (A1 l (E s - E b) - conj (A1 l (E t - E b)))) else 0) +
     (if Z.eqb cb c then
       - Ci K * ((if Nat.eqb t b then rsum (fun x => T l b x * T l x s * A0 l (E x - E b)) (states L (c + 1)) else 0) -
                 (if Nat.eqb s b then rsum (fun x => T l t x * T l x b * conj (A0 l (E x - E b))) (states L (c + 1)) else 0)) +
       - Ci K * ((if Nat.eqb t b then rsum (fun x => T l b x * T l x s * conj (A1 l (E b - E x))) (states L (c - 1)) else 0) -
                 (if Nat.eqb s b then rsum (fun x => T l t x * T l x b * A1 l (E b - E x)) (states L (c - 1)) else 0))
      else 0))).
  { f_equal; [|f_equal].
    - transitivity (rsum (fun a => if Nat.eqb a b then - Ci K * (T l a s * T l t a * (conj (A0 l (E a - E s)) - A0 l (E a - E t))) else 0) (states L (c + 1))).
      + destruct top eqn:ET; [now rewrite (top_nil c ET)|]. rewrite (rsum_flat_map C). apply (rsum_ext C). intros a Ha.
        rewrite (hit_leads l _ _ _ _ (fun l' => _) Hl), Z.eqb_refl. rewrite (row_test b cb a (c + 1)) by (auto; now apply (here_up s)).
        destruct (Nat.eqb a b); auto. rewrite cv_jump_up, !T_conj. ring.
      + apply (pick_block (c + 1) b cb (fun a => _)); auto; lia.
    - transitivity (rsum (fun a => if Nat.eqb a b then - Ci K * (T l a s * T l t a * (A1 l (E s - E a) - conj (A1 l (E t - E a)))) else 0) (states L (c - 1))).
      + destruct bottom eqn:ET; [now rewrite (bottom_nil c ET)|]. rewrite (rsum_flat_map C). apply (rsum_ext C). intros a Ha.
        rewrite (hit_leads l _ _ _ _ (fun l' => _) Hl), Z.eqb_refl. rewrite (row_test b cb a (c - 1)) by (auto; now apply (here_dn s)).
        destruct (Nat.eqb a b); auto. rewrite cv_jump_dn, !T_conj. ring.
      + apply (pick_block (c - 1) b cb (fun a => _)); auto; lia.
    - rewrite (rsum_flat_map C).
      transitivity (rsum (fun a => if Nat.eqb a b then
       - Ci K * ((if Nat.eqb t a then rsum (fun x => T l a x * T l x s * A0 l (E x - E a)) (states L (c + 1)) else 0) -
                 (if Nat.eqb s a then rsum (fun x => T l t x * T l x a * conj (A0 l (E x - E a))) (states L (c + 1)) else 0)) +
       - Ci K * ((if Nat.eqb t a then rsum (fun x => T l a x * T l x s * conj (A1 l (E a - E x))) (states L (c - 1)) else 0) -
                 (if Nat.eqb s a then rsum (fun x => T l t x * T l x a * A1 l (E a - E x)) (states L (c - 1)) else 0)) else 0) (states L c)).
      + apply (rsum_ext C). intros a Ha. assert (Ha' : here a c) by (split; auto; lia). rewrite (rsum_app C).
        transitivity ((if Nat.eqb a b then - Ci K * ((if Nat.eqb t a then rsum (fun x => T l a x * T l x s * A0 l (E x - E a)) (states L (c + 1)) else 0) -
                 (if Nat.eqb s a then rsum (fun x => T l t x * T l x a * conj (A0 l (E x - E a))) (states L (c + 1)) else 0)) else 0) +
          (if Nat.eqb a b then - Ci K * ((if Nat.eqb t a then rsum (fun x => T l a x * T l x s * conj (A1 l (E a - E x))) (states L (c - 1)) else 0) -
                 (if Nat.eqb s a then rsum (fun x => T l t x * T l x a * A1 l (E a - E x)) (states L (c - 1)) else 0)) else 0));
          [|destruct (Nat.eqb a b); ring].
        f_equal.
        * destruct top eqn:ET; [rewrite (top_nil c ET); cbn [rsum]; destruct (Nat.eqb a b), (Nat.eqb t a), (Nat.eqb s a); ring|].
          rewrite (rsum_flat_map C).
          transitivity (rsum (fun x => if Nat.eqb a b then (if Nat.eqb t a then - Ci K * (T l a x * T l x s * A0 l (E x - E a)) else 0) +
             (if Nat.eqb s a then - Ci K * - (T l t x * T l x a * conj (A0 l (E x - E a))) else 0) else 0) (states L (c + 1))).
          -- apply (rsum_ext C). intros x Hx. rewrite (rsum_app C).
             transitivity ((if Nat.eqb a b then if Nat.eqb t a then - Ci K * (T l a x * T l x s * A0 l (E x - E a)) else 0 else 0) +
               (if Nat.eqb a b then if Nat.eqb s a then - Ci K * - (T l t x * T l x a * conj (A0 l (E x - E a))) else 0 else 0)); [|destruct (Nat.eqb a b); ring].
             f_equal.
             ++ destruct (Nat.eqb t a); [|cbn [rsum]; now destruct (Nat.eqb a b)]. rewrite (hit_leads l _ _ _ _ (fun l' => _) Hl), Z.eqb_refl.
                rewrite (row_test b cb a c) by auto. destruct (Nat.eqb a b); auto. rewrite cv_stay1_up, !T_conj. ring.
             ++ destruct (Nat.eqb s a); [|cbn [rsum]; now destruct (Nat.eqb a b)]. rewrite (hit_leads l _ _ _ _ (fun l' => _) Hl), Z.eqb_refl.
                rewrite (row_test b cb a c) by auto. destruct (Nat.eqb a b); auto. rewrite cv_stay2_up, !T_conj. ring.
          -- destruct (Nat.eqb a b); [|apply (rsum_0 C); auto]. rewrite (rsum_plus C).
             destruct (Nat.eqb t a), (Nat.eqb s a); rewrite ?(rsum_mul_l C), ?(rsum_opp C), ?(rsum_0 C _ (fun _ => 0)) by auto; ring.
        * destruct bottom eqn:ET; [rewrite (bottom_nil c ET); cbn [rsum]; destruct (Nat.eqb a b), (Nat.eqb t a), (Nat.eqb s a); ring|].
          rewrite (rsum_flat_map C).
          transitivity (rsum (fun x => if Nat.eqb a b then (if Nat.eqb t a then - Ci K * (T l a x * T l x s * conj (A1 l (E a - E x))) else 0) +
             (if Nat.eqb s a then - Ci K * - (T l t x * T l x a * A1 l (E a - E x)) else 0) else 0) (states L (c - 1))).
          -- apply (rsum_ext C). intros x Hx. rewrite (rsum_app C).
             transitivity ((if Nat.eqb a b then if Nat.eqb t a then - Ci K * (T l a x * T l x s * conj (A1 l (E a - E x))) else 0 else 0) +
               (if Nat.eqb a b then if Nat.eqb s a then - Ci K * - (T l t x * T l x a * A1 l (E a - E x)) else 0 else 0)); [|destruct (Nat.eqb a b); ring].
             f_equal.
             ++ destruct (Nat.eqb t a); [|cbn [rsum]; now destruct (Nat.eqb a b)]. rewrite (hit_leads l _ _ _ _ (fun l' => _) Hl), Z.eqb_refl.
                rewrite (row_test b cb a c) by auto. destruct (Nat.eqb a b); auto. rewrite cv_stay2_dn, !T_conj. ring.
             ++ destruct (Nat.eqb s a); [|cbn [rsum]; now destruct (Nat.eqb a b)]. rewrite (hit_leads l _ _ _ _ (fun l' => _) Hl), Z.eqb_refl.
                rewrite (row_test b cb a c) by auto. destruct (Nat.eqb a b); auto. rewrite cv_stay1_dn, !T_conj. ring.
          -- destruct (Nat.eqb a b); [|apply (rsum_0 C); auto]. rewrite (rsum_plus C).
             destruct (Nat.eqb t a), (Nat.eqb s a); rewrite ?(rsum_mul_l C), ?(rsum_opp C), ?(rsum_0 C _ (fun _ => 0)) by auto; ring.
      + apply (pick_block c b cb (fun a => _)); auto; lia. }
  (* the other side *)
  unfold unit_elem. rewrite (g1_at l s c b cb), (g0_at l b cb t c) by auto.
  rewrite (sum_g0 (fun u => T l b u * T l u s) l b cb Hb), (sum_g1 (fun u => T l t u * T l u b) l b cb Hb). rewrite (Nat.eqb_sym b s).
  destruct (Nat.eqb_spec t b) as [->|Nt].
  - assert (cb = c) by (destruct Hb, Ht; now apply (lo_same L LO cb c b)). subst cb.
    destruct (Nat.eqb_spec s b) as [->|Ns]; [easy|]. rewrite Z.eqb_refl.
    destruct (Z.eqb_spec c (c + 1)), (Z.eqb_spec c (c - 1)); try lia. ring.
  - destruct (Nat.eqb_spec s b) as [->|Ns].
    + assert (cb = c) by (destruct Hb, Hs; now apply (lo_same L LO cb c b)). subst cb. rewrite Z.eqb_refl.
      destruct (Z.eqb_spec c (c + 1)), (Z.eqb_spec c (c - 1)); try lia. ring.
    + destruct (Z.eqb_spec cb (c + 1)), (Z.eqb_spec cb (c - 1)), (Z.eqb_spec c (cb + 1)), (Z.eqb_spec c (cb - 1)), (Z.eqb_spec cb c); try lia; ring.
Qed.

Local Notation dn_col := (dn_col K L nl E T pi F Fm ph).
Local Notation dn_all := (dn_all K L nl E T pi F Fm ph).
Local Notation nd_col := (nd_col K L nl E T pi F Fm ph).
Local Notation nd_all := (nd_all K L nl E T pi F Fm ph).

Lemma dn_all_prs : dn_all = flat_map (fun x => dn_col (fst (fst x)) (snd (fst x)) (snd x)) prs.
Proof.
  unfold RTDK.dn_all, prs. rewrite flat_map_flat_map. apply flat_map_ext. intros c. rewrite flat_map_flat_map. apply flat_map_ext. intros b.
  rewrite flat_map_flat_map. apply flat_map_ext. intros bp. destruct (Nat.eqb b bp); auto. cbn [flat_map fst snd]. now rewrite app_nil_r.
Qed.
Ltac entries := repeat match goal with
  | H : In _ (_ ++ _) |- _ => apply in_app_iff in H; destruct H
  | H : In _ (if ?b then _ else _) |- _ => destruct b
  | H : In _ [] |- _ => destruct H
  | H : In _ (flat_map _ _) |- _ => apply in_flat_map in H; destruct H as (? & ? & H); cbv zeta in H
  | H : In _ (map _ _) |- _ => apply in_map_iff in H; destruct H as (? & <- & _); reflexivity
  end.
Lemma dn_col_col : forall s t c e, In e (dn_col s t c) -> snd (snd (fst e)) = nd_ind L s t c.
Proof. intros s t c e H. unfold RTDK.dn_col in H. cbv zeta in H. entries. Qed.
Lemma nd_col_col : forall a c e, In e (nd_col a c) -> snd (snd (fst e)) = ind0 L a a c.
Proof. intros a c e H. unfold RTDNd.nd_col in H. cbv zeta in H. entries. Qed.
Lemma hitc_off : forall l i j us, (forall e, In e us -> snd (snd (fst e)) <> j) -> rsum (hitc (l, (i, j))) us = 0.
Proof. intros l i j us H. apply (rsum_0 C). intros e He. unfold hitc. destruct (eq3 _ _) as [e'|]; auto. exfalso. apply (H e He). now rewrite <- e'. Qed.

Lemma dn_at : forall l b cb s t c, (l < nl)%nat -> here b cb -> In (s, t, c) prs -> rsum (hitc (l, (ind0 L b b cb, nd_ind L s t c))) dn_all = unit l b b s t.
Proof.
  intros l b cb s t c Hl Hb H. rewrite dn_all_prs, (rsum_flat_map C), (prs_single _ s t c H); [now apply dn_value|].
  intros ((s', t'), c') H' Ne. cbn [fst snd]. apply hitc_off. intros e He EQ. apply Ne. rewrite (dn_col_col _ _ _ _ He) in EQ. now apply nd_inj.
Qed.
(** away from the pairs nothing is stored *)
Lemma dn_off : forall l i j, (forall s t c, In (s, t, c) prs -> nd_ind L s t c <> j) -> rsum (hitc (l, (i, j))) dn_all = 0.
Proof.
  intros l i j H. apply hitc_off. intros e He. rewrite dn_all_prs in He. apply in_flat_map in He. destruct He as (((s & t) & c) & H' & He).
  rewrite (dn_col_col _ _ _ _ He). now apply H.
Qed.

Lemma row_test_nd : forall s t c a b z (x : C), In (s, t, c) prs -> here a z -> here b z -> a <> b ->
  (if Z.eqb (nd_ind L s t c) (nd_ind L a b z) then x else 0) = if Nat.eqb a s then if Nat.eqb b t then x else 0 else 0.
Proof.
  intros s t c a b z x H Ha Hb Ne. assert (H' : In (a, b, z) prs) by (apply prs_in; auto).
  destruct (Z.eqb_spec (nd_ind L s t c) (nd_ind L a b z)) as [e|e].
  - pose proof (nd_inj _ _ _ _ _ _ H H' e) as I. injection I as <- <- <-. now rewrite !Nat.eqb_refl.
  - destruct (Nat.eqb_spec a s) as [->|]; auto. destruct (Nat.eqb_spec b t) as [->|]; auto. exfalso. apply e. f_equal.
    apply prs_in in H. destruct H as ((Hc & Hs) & _), Ha. now apply (lo_same L LO c z s).
Qed.
Lemma pick_pair : forall z s t c (g : nat -> nat -> C), In (s, t, c) prs -> (-1 <= z <= Z.of_nat (ly_ncharge L))%Z ->
  rsum (fun a => rsum (fun b => if Nat.eqb a s then if Nat.eqb b t then g a b else 0 else 0) (states L z)) (states L z) = if Z.eqb c z then g s t else 0.
Proof.
  intros z s t c g H Hz. apply prs_in in H. destruct H as (Hs & Ht & Ne).
  transitivity (rsum (fun a => if Nat.eqb a s then if Z.eqb c z then g a t else 0 else 0) (states L z)).
  - apply (rsum_ext C). intros a _. destruct (Nat.eqb a s); [|apply (rsum_0 C); auto]. now apply (pick_block z t c (fun b => g a b)).
  - rewrite (pick_block z s c (fun a => if Z.eqb c z then g a t else 0)) by auto. now destruct (Z.eqb c z).
Qed.

Lemma nd_value : forall l a ca s t c, (l < nl)%nat -> here a ca -> In (s, t, c) prs ->
  rsum (hitc (l, (nd_ind L s t c, ind0 L a a ca))) (nd_col a ca) = unit l s t a a.
Proof.
  intros l a ca s t c Hl Ha H. pose proof (here_range _ _ Ha) as Rc. pose proof (proj1 (prs_in s t c) H) as (Hs & Ht & Ne).
  unfold RTDNd.nd_col. cbv zeta. rewrite !(rsum_app C).
  set (top := (ca =? Z.of_nat (ly_ncharge L) - 1)%Z). set (bottom := (ca =? 0)%Z).
  transitivity (
    (if Z.eqb c (ca + 1) then - Ci K * (T l s a * T l a t * (conj (A0 l (E t - E a)) - A0 l (E s - E a))) else 0) +
    ((if Z.eqb c (ca - 1) then - Ci K * (T l s a * T l a t * (A1 l (E a - E t) - conj (A1 l (E a - E s)))) else 0) +
     (if Z.eqb c ca then
       - Ci K * ((if Nat.eqb a t then rsum (fun x => T l s x * T l x a * A0 l (E x - E t)) (states L (ca + 1)) else 0) -
                 (if Nat.eqb a s then rsum (fun x => T l a x * T l x t * conj (A0 l (E x - E s))) (states L (ca + 1)) else 0)) +
       - Ci K * ((if Nat.eqb a t then rsum (fun x => T l s x * T l x a * conj (A1 l (E t - E x))) (states L (ca - 1)) else 0) -
                 (if Nat.eqb a s then rsum (fun x => T l a x * T l x t * A1 l (E s - E x)) (states L (ca - 1)) else 0))
      else 0))).
  { f_equal; [|f_equal].
    - transitivity (rsum (fun a2 => rsum (fun b2 => if Nat.eqb a2 s then if Nat.eqb b2 t then
          - Ci K * (T l a2 a * T l a b2 * (conj (A0 l (E b2 - E a)) - A0 l (E a2 - E a))) else 0 else 0) (states L (ca + 1))) (states L (ca + 1))).
      + destruct top eqn:ET; [now rewrite (top_nil ca ET)|]. rewrite (rsum_flat_map C). apply (rsum_ext C). intros a2 Ha2.
        rewrite (rsum_flat_map C). apply (rsum_ext C). intros b2 Hb2. destruct (Nat.eqb_spec a2 b2) as [->|N2].
        * cbn [rsum]. destruct (Nat.eqb_spec b2 s) as [->|]; auto. destruct (Nat.eqb_spec s t); auto. easy.
        * rewrite (hit_leads l _ _ _ _ (fun l' => _) Hl), Z.eqb_refl. rewrite row_test_nd by (auto; now apply (here_up a)).
          destruct (Nat.eqb a2 s), (Nat.eqb b2 t); auto. rewrite cv_jump_up, !T_conj. ring.
      + apply (pick_pair (ca + 1) s t c (fun a2 b2 => _)); auto; lia.
    - transitivity (rsum (fun a2 => rsum (fun b2 => if Nat.eqb a2 s then if Nat.eqb b2 t then
          - Ci K * (T l a2 a * T l a b2 * (A1 l (E a - E b2) - conj (A1 l (E a - E a2)))) else 0 else 0) (states L (ca - 1))) (states L (ca - 1))).
      + destruct bottom eqn:ET; [now rewrite (bottom_nil ca ET)|]. rewrite (rsum_flat_map C). apply (rsum_ext C). intros a2 Ha2.
        rewrite (rsum_flat_map C). apply (rsum_ext C). intros b2 Hb2. destruct (Nat.eqb_spec b2 a2) as [->|N2].
        * cbn [rsum]. destruct (Nat.eqb_spec a2 s) as [->|]; auto. destruct (Nat.eqb_spec s t); auto. easy.
        * rewrite (hit_leads l _ _ _ _ (fun l' => _) Hl), Z.eqb_refl. rewrite row_test_nd by (auto; now apply (here_dn a)).
          destruct (Nat.eqb a2 s), (Nat.eqb b2 t); auto. rewrite cv_jump_dn, !T_conj. ring.
      + apply (pick_pair (ca - 1) s t c (fun a2 b2 => _)); auto; lia.
    - rewrite (rsum_flat_map C).
      transitivity (rsum (fun a2 => rsum (fun b2 => if Nat.eqb a2 s then if Nat.eqb b2 t then
       - Ci K * ((if Nat.eqb a b2 then rsum (fun x => T l a2 x * T l x a * A0 l (E x - E b2)) (states L (ca + 1)) else 0) -
                 (if Nat.eqb a a2 then rsum (fun x => T l a x * T l x b2 * conj (A0 l (E x - E a2))) (states L (ca + 1)) else 0)) +
       - Ci K * ((if Nat.eqb a b2 then rsum (fun x => T l a2 x * T l x a * conj (A1 l (E b2 - E x))) (states L (ca - 1)) else 0) -
                 (if Nat.eqb a a2 then rsum (fun x => T l a x * T l x b2 * A1 l (E a2 - E x)) (states L (ca - 1)) else 0)) else 0 else 0)
          (states L ca)) (states L ca)); [|apply (pick_pair ca s t c (fun a2 b2 => _)); auto; lia].
      apply (rsum_ext C). intros a2 Ha2. rewrite (rsum_flat_map C). apply (rsum_ext C). intros b2 Hb2.
      assert (Ha2' : here a2 ca) by (split; auto; lia). assert (Hb2' : here b2 ca) by (split; auto; lia).
      destruct (Nat.eqb_spec a2 b2) as [->|N2].
      { cbn [rsum]. destruct (Nat.eqb_spec b2 s) as [->|]; auto. destruct (Nat.eqb_spec s t); auto. easy. }
      assert (RT : forall (x : C), (if Z.eqb (nd_ind L s t c) (nd_ind L a2 b2 ca) then x else 0) = if Nat.eqb a2 s && Nat.eqb b2 t then x else 0).
      { intros x. rewrite row_test_nd by auto. destruct (Nat.eqb a2 s), (Nat.eqb b2 t); auto. }
      rewrite (rsum_app C).
      transitivity ((if Nat.eqb a2 s && Nat.eqb b2 t then
           - Ci K * ((if Nat.eqb a b2 then rsum (fun x => T l a2 x * T l x a * A0 l (E x - E b2)) (states L (ca + 1)) else 0) -
                 (if Nat.eqb a a2 then rsum (fun x => T l a x * T l x b2 * conj (A0 l (E x - E a2))) (states L (ca + 1)) else 0)) else 0) +
          (if Nat.eqb a2 s && Nat.eqb b2 t then
           - Ci K * ((if Nat.eqb a b2 then rsum (fun x => T l a2 x * T l x a * conj (A1 l (E b2 - E x))) (states L (ca - 1)) else 0) -
                 (if Nat.eqb a a2 then rsum (fun x => T l a x * T l x b2 * A1 l (E a2 - E x)) (states L (ca - 1)) else 0)) else 0));
        [|destruct (Nat.eqb a2 s), (Nat.eqb b2 t); cbn [andb]; ring].
      f_equal.
      * destruct top eqn:ET; [rewrite (top_nil ca ET); cbn [rsum]; destruct (Nat.eqb a2 s && Nat.eqb b2 t), (Nat.eqb a b2), (Nat.eqb a a2); ring|].
        rewrite (rsum_flat_map C).
        transitivity (rsum (fun x => if Nat.eqb a2 s && Nat.eqb b2 t then (if Nat.eqb a b2 then - Ci K * (T l a2 x * T l x a * A0 l (E x - E b2)) else 0) +
             (if Nat.eqb a a2 then - Ci K * - (T l a x * T l x b2 * conj (A0 l (E x - E a2))) else 0) else 0) (states L (ca + 1))).
        -- apply (rsum_ext C). intros x Hx. rewrite (rsum_app C).
           transitivity ((if Nat.eqb a2 s && Nat.eqb b2 t then if Nat.eqb a b2 then - Ci K * (T l a2 x * T l x a * A0 l (E x - E b2)) else 0 else 0) +
             (if Nat.eqb a2 s && Nat.eqb b2 t then if Nat.eqb a a2 then - Ci K * - (T l a x * T l x b2 * conj (A0 l (E x - E a2))) else 0 else 0));
             [|destruct (Nat.eqb a2 s && Nat.eqb b2 t); ring].
           f_equal.
           ++ destruct (Nat.eqb a b2); [|cbn [rsum]; now destruct (Nat.eqb a2 s && Nat.eqb b2 t)]. rewrite (hit_leads l _ _ _ _ (fun l' => _) Hl), Z.eqb_refl, RT.
              destruct (Nat.eqb a2 s && Nat.eqb b2 t); auto. rewrite cv_stay1_up, !T_conj. ring.
           ++ destruct (Nat.eqb a a2); [|cbn [rsum]; now destruct (Nat.eqb a2 s && Nat.eqb b2 t)]. rewrite (hit_leads l _ _ _ _ (fun l' => _) Hl), Z.eqb_refl, RT.
              destruct (Nat.eqb a2 s && Nat.eqb b2 t); auto. rewrite cv_stay2_up, !T_conj. ring.
        -- destruct (Nat.eqb a2 s && Nat.eqb b2 t); [|apply (rsum_0 C); auto]. rewrite (rsum_plus C).
           destruct (Nat.eqb a b2), (Nat.eqb a a2); rewrite ?(rsum_mul_l C), ?(rsum_opp C), ?(rsum_0 C _ (fun _ => 0)) by auto; ring.
      * destruct bottom eqn:ET; [rewrite (bottom_nil ca ET); cbn [rsum]; destruct (Nat.eqb a2 s && Nat.eqb b2 t), (Nat.eqb a b2), (Nat.eqb a a2); ring|].
        rewrite (rsum_flat_map C).
        transitivity (rsum (fun x => if Nat.eqb a2 s && Nat.eqb b2 t then (if Nat.eqb a b2 then - Ci K * (T l a2 x * T l x a * conj (A1 l (E b2 - E x))) else 0) +
             (if Nat.eqb a a2 then - Ci K * - (T l a x * T l x b2 * A1 l (E a2 - E x)) else 0) else 0) (states L (ca - 1))).
        -- apply (rsum_ext C). intros x Hx. rewrite (rsum_app C).
           transitivity ((if Nat.eqb a2 s && Nat.eqb b2 t then if Nat.eqb a b2 then - Ci K * (T l a2 x * T l x a * conj (A1 l (E b2 - E x))) else 0 else 0) +
             (if Nat.eqb a2 s && Nat.eqb b2 t then if Nat.eqb a a2 then - Ci K * - (T l a x * T l x b2 * A1 l (E a2 - E x)) else 0 else 0));
             [|destruct (Nat.eqb a2 s && Nat.eqb b2 t); ring].
           f_equal.
           ++ destruct (Nat.eqb a b2); [|cbn [rsum]; now destruct (Nat.eqb a2 s && Nat.eqb b2 t)]. rewrite (hit_leads l _ _ _ _ (fun l' => _) Hl), Z.eqb_refl, RT.
              destruct (Nat.eqb a2 s && Nat.eqb b2 t); auto. rewrite cv_stay2_dn, !T_conj. ring.
           ++ destruct (Nat.eqb a a2); [|cbn [rsum]; now destruct (Nat.eqb a2 s && Nat.eqb b2 t)]. rewrite (hit_leads l _ _ _ _ (fun l' => _) Hl), Z.eqb_refl, RT.
              destruct (Nat.eqb a2 s && Nat.eqb b2 t); auto. rewrite cv_stay1_dn, !T_conj. ring.
        -- destruct (Nat.eqb a2 s && Nat.eqb b2 t); [|apply (rsum_0 C); auto]. rewrite (rsum_plus C).
           destruct (Nat.eqb a b2), (Nat.eqb a a2); rewrite ?(rsum_mul_l C), ?(rsum_opp C), ?(rsum_0 C _ (fun _ => 0)) by auto; ring. }
  (* the other side *)
  unfold unit_elem. rewrite (g1_at l a ca t c), (g0_at l s c a ca) by auto.
  rewrite (sum_g0 (fun u => T l s u * T l u a) l t c Ht), (sum_g1 (fun u => T l a u * T l u t) l s c Hs). rewrite (Nat.eqb_sym s a).
  destruct (Nat.eqb_spec a t) as [->|Nt].
  - assert (ca = c) by (destruct Ha, Ht; now apply (lo_same L LO ca c t)). subst ca.
    destruct (Nat.eqb_spec t s) as [->|Ns]; [easy|]. rewrite Z.eqb_refl.
    destruct (Z.eqb_spec c (c + 1)), (Z.eqb_spec c (c - 1)); try lia. ring.
  - destruct (Nat.eqb_spec a s) as [->|Ns].
    + assert (ca = c) by (destruct Ha, Hs; now apply (lo_same L LO ca c s)). subst ca. rewrite Z.eqb_refl.
      destruct (Z.eqb_spec c (c + 1)), (Z.eqb_spec c (c - 1)); try lia. ring.
    + destruct (Z.eqb_spec ca (c + 1)), (Z.eqb_spec ca (c - 1)), (Z.eqb_spec c (ca + 1)), (Z.eqb_spec c (ca - 1)), (Z.eqb_spec c ca); try lia; ring.
Qed.

Lemma nd_at : forall l a ca s t c, (l < nl)%nat -> here a ca -> In (s, t, c) prs -> rsum (hitc (l, (nd_ind L s t c, ind0 L a a ca))) nd_all = unit l s t a a.
Proof.
  intros l a ca s t c Hl Ha H. unfold RTDNd.nd_all, each_state. pose proof (here_range _ _ Ha) as Rc. destruct Ha as (Hc & Hin).
  rewrite (rsum_flat_map C), (rsum_single C _ _ _ ca).
  - rewrite (rsum_flat_map C), (rsum_single C _ _ _ a).
    + unfold is_unique. destruct (lo_diag L LO a ca) as (_ & -> & _); auto. apply nd_value; auto. now split.
    + now apply (lo_nodup L LO).
    + auto.
    + intros y Hy Ny. destruct (is_unique L y y ca); auto. apply hitc_off. intros e He EQ. rewrite (nd_col_col _ _ _ He) in EQ. apply Ny. apply (diag_inj y ca a ca); auto; now split.
  - apply charges_nodup.
  - apply charges_in. lia.
  - intros c' Hc' Nc. apply charges_in in Hc'. rewrite (rsum_flat_map C). apply (rsum_0 C). intros y Hy.
    destruct (is_unique L y y c'); auto. apply hitc_off. intros e He EQ. rewrite (nd_col_col _ _ _ He) in EQ. apply Nc. apply (diag_inj y c' a ca); auto; split; auto; lia.
Qed.

(** *** The tables *)
Local Notation re_wdn := (re_wdn K L nl E T pi F Fm ph).
Local Notation im_wdn := (im_wdn K L nl E T pi F Fm ph).
Local Notation re_wnd := (re_wnd K L nl E T pi F Fm ph).
Local Notation im_wnd := (im_wnd K L nl E T pi F Fm ph).
Local Notation ndx x := (nd_ind L (fst (fst x)) (snd (fst x)) (snd x)).
Local Notation gap x := (E (fst (fst x)) - E (snd (fst x))).
Lemma wdn_parts : forall x, mkC (re_wdn x) (im_wdn x) = rsum (hitc x) dn_all.
Proof. intros x. apply parts. Qed.
Lemma wnd_parts : forall x, mkC (re_wnd x) (im_wnd x) = rsum (hitc x) nd_all.
Proof. intros x. apply parts. Qed.
Lemma nd_off : forall l i j, (forall s t c, In (s, t, c) prs -> nd_ind L s t c <> i) -> rsum (hitc (l, (i, j))) nd_all = 0.
Proof.
  intros l i j H. apply (rsum_0 C). intros e He. unfold hitc. destruct (eq3 _ _) as [e'|]; auto. exfalso.
  assert (X : exists s t c, In (s, t, c) prs /\ fst (snd (fst e)) = nd_ind L s t c).
  { clear e'. unfold RTDNd.nd_all, each_state in He. apply in_flat_map in He. destruct He as (c & Hc & He). apply charges_in in Hc.
    apply in_flat_map in He. destruct He as (a & Ha & He). destruct (is_unique L a a c); [|destruct He].
    unfold RTDNd.nd_col in He. cbv zeta in He.
    assert (Hh : here a c) by (split; auto; lia).
    apply in_app_iff in He. destruct He as [He|He]; [|apply in_app_iff in He; destruct He as [He|He]].
    - destruct (c =? _)%Z; [destruct He|]. apply in_flat_map in He. destruct He as (a2 & Ha2 & He). apply in_flat_map in He. destruct He as (b2 & Hb2 & He).
      destruct (Nat.eqb_spec a2 b2); [destruct He|]. apply in_map_iff in He. destruct He as (l' & <- & _). exists a2, b2, (c + 1)%Z. split; auto.
      apply prs_in. repeat split; auto; lia.
    - destruct (c =? _)%Z eqn:EC; [destruct He|]. apply Z.eqb_neq in EC. apply in_flat_map in He. destruct He as (a2 & Ha2 & He). apply in_flat_map in He. destruct He as (b2 & Hb2 & He).
      destruct (Nat.eqb_spec b2 a2); [destruct He|]. apply in_map_iff in He. destruct He as (l' & <- & _). exists a2, b2, (c - 1)%Z. split; auto.
      apply prs_in. repeat split; auto; lia.
    - apply in_flat_map in He. destruct He as (a2 & Ha2 & He). apply in_flat_map in He. destruct He as (b2 & Hb2 & He).
      destruct (Nat.eqb_spec a2 b2); [destruct He|]. exists a2, b2, c. split; [apply prs_in; repeat split; auto; lia|]. entries. }
  destruct X as (s & t & c & Hp & EQ). rewrite <- e' in EQ. cbn [fst snd] in EQ. exact (H s t c Hp (eq_sym EQ)).
Qed.
Lemma neg_off : forall k s t c, (k < n2 L)%nat -> In (s, t, c) prs -> nd_ind L s t c <> (Z.of_nat k - Z.of_nat (n2 L))%Z.
Proof. intros k s t c Hk H. pose proof (nd_range _ _ _ H). lia. Qed.
Lemma col_at_re : forall l i k, (k < n2 L)%nat -> col_at K L re_wdn l i k = re_wdn (l, (i, Z.of_nat k)).
Proof.
  intros l i k Hk. unfold col_at.
  assert (X : mkC (re_wdn (l, (i, (Z.of_nat k - Z.of_nat (n2 L))%Z))) (im_wdn (l, (i, (Z.of_nat k - Z.of_nat (n2 L))%Z))) = (0 : C)).
  { rewrite wdn_parts. apply dn_off. intros s t c H. now apply neg_off. }
  injection X as -> _. ring.
Qed.
Lemma col_at_im : forall l i k, (k < n2 L)%nat -> col_at K L im_wdn l i k = im_wdn (l, (i, Z.of_nat k)).
Proof.
  intros l i k Hk. unfold col_at.
  assert (X : mkC (re_wdn (l, (i, (Z.of_nat k - Z.of_nat (n2 L))%Z))) (im_wdn (l, (i, (Z.of_nat k - Z.of_nat (n2 L))%Z))) = (0 : C)).
  { rewrite wdn_parts. apply dn_off. intros s t c H. now apply neg_off. }
  injection X as _ ->. ring.
Qed.
Lemma snd_at : forall m j, (m < n2 L)%nat -> snd_re K L nl E T pi F Fm ph m j = rsum (fun l => re_wnd (l, (Z.of_nat m, j))) lds /\
  snd_im K L nl E T pi F Fm ph m j = rsum (fun l => im_wnd (l, (Z.of_nat m, j))) lds.
Proof.
  intros m j Hm. unfold snd_re, snd_im, wrap. cbn [rsum].
  assert (X : forall l, mkC (re_wnd (l, ((Z.of_nat m - Z.of_nat (n2 L))%Z, j))) (im_wnd (l, ((Z.of_nat m - Z.of_nat (n2 L))%Z, j))) = (0 : C)).
  { intros l. rewrite wnd_parts. apply nd_off. intros s t c H. now apply neg_off. }
  split; apply (rsum_ext K); intros l _; specialize (X l); injection X as X1 X2; rewrite ?X1, ?X2; ring.
Qed.
Lemma lnn_prs : lnn_updates K L E inv = map (fun x => ((ndx x, ndx x), inv (gap x))) prs.
Proof.
  unfold lnn_updates, prs. rewrite !map_flat_map. apply flat_map_ext. intros c. rewrite map_flat_map. apply flat_map_ext. intros b.
  rewrite map_flat_map. apply flat_map_ext. intros bp. destruct (Nat.eqb b bp); auto.
Qed.
Lemma lnn_tab_at : forall i j, lnn_tab K L E inv (i, j) = rsum (fun x => if Z.eqb i (ndx x) then if Z.eqb j (ndx x) then inv (gap x) else 0 else 0) prs.
Proof.
  intros i j. unfold lnn_tab. rewrite run_updates_sum, lnn_prs, rsum_map. unfold zeros.
  rewrite (Radd_0_l (rth K)). apply (rsum_ext K). intros x _. cbn [fst snd].
  destruct (eqZZ (i, j) (ndx x, ndx x)) as [e|e], (Z.eqb_spec i (ndx x)), (Z.eqb_spec j (ndx x)); auto; congruence.
Qed.
Lemma lnn_at : forall k m, (k < n2 L)%nat -> (m < n2 L)%nat ->
  lnn K L E inv k m = rsum (fun x => if Z.eqb (Z.of_nat k) (ndx x) then if Z.eqb (Z.of_nat m) (ndx x) then inv (gap x) else 0 else 0) prs.
Proof.
  intros k m Hk Hm. unfold lnn, wrap. cbn [rsum]. rewrite !lnn_tab_at.
  rewrite (rsum_0 K _ (fun x => if Z.eqb (Z.of_nat k) (ndx x) then if Z.eqb (Z.of_nat m - Z.of_nat (n2 L)) (ndx x) then _ else 0 else 0) prs).
  2:{ intros ((s & t) & c) H. cbn [fst snd]. destruct (Z.eqb _ _); auto. destruct (Z.eqb_spec (Z.of_nat m - Z.of_nat (n2 L)) (nd_ind L s t c)); auto.
      exfalso. now apply (neg_off m s t c). }
  rewrite (rsum_0 K _ (fun x => if Z.eqb (Z.of_nat k - Z.of_nat (n2 L)) (ndx x) then if Z.eqb (Z.of_nat m) (ndx x) then _ else 0 else 0) prs).
  2:{ intros ((s & t) & c) H. cbn [fst snd]. destruct (Z.eqb_spec (Z.of_nat k - Z.of_nat (n2 L)) (nd_ind L s t c)); auto.
      exfalso. now apply (neg_off k s t c). }
  rewrite (rsum_0 K _ (fun x => if Z.eqb (Z.of_nat k - Z.of_nat (n2 L)) (ndx x) then if Z.eqb (Z.of_nat m - Z.of_nat (n2 L)) (ndx x) then _ else 0 else 0) prs).
  2:{ intros ((s & t) & c) H. cbn [fst snd]. destruct (Z.eqb_spec (Z.of_nat k - Z.of_nat (n2 L)) (nd_ind L s t c)); auto.
      exfalso. now apply (neg_off k s t c). }
  ring.
Qed.
Lemma at_index : forall (A : Z -> K) x, In x prs -> rsum (fun k => A (Z.of_nat k) * (if Z.eqb (Z.of_nat k) (ndx x) then 1 else 0)) (seq 0 (n2 L)) = A (ndx x).
Proof.
  intros A ((s & t) & c) H. cbn [fst snd]. pose proof (nd_range _ _ _ H) as R.
  rewrite (rsum_single K _ _ _ (Z.to_nat (nd_ind L s t c))).
  - rewrite Z2Nat.id by lia. rewrite Z.eqb_refl. ring.
  - apply seq_NoDup.
  - apply in_seq. lia.
  - intros y _ Ny. destruct (Z.eqb_spec (Z.of_nat y) (nd_ind L s t c)) as [e|]; [|ring]. exfalso. apply Ny. lia.
Qed.
Lemma through : forall A B : Z -> K,
  rsum (fun m => rsum (fun k => A (Z.of_nat k) * lnn K L E inv k m) (seq 0 (n2 L)) * B (Z.of_nat m)) (seq 0 (n2 L)) =
  rsum (fun x => A (ndx x) * inv (gap x) * B (ndx x)) prs.
Proof.
  intros A B.
  transitivity (rsum (fun x => rsum (fun m => rsum (fun k => (A (Z.of_nat k) * (if Z.eqb (Z.of_nat k) (ndx x) then 1 else 0)) * inv (gap x) * (B (Z.of_nat m) * (if Z.eqb (Z.of_nat m) (ndx x) then 1 else 0))) (seq 0 (n2 L))) (seq 0 (n2 L))) prs).
  - rewrite (rsum_swap K). apply (rsum_ext K). intros m Hm. rewrite <- (rsum_mul_r K). rewrite (rsum_swap K). apply (rsum_ext K). intros k Hk.
    apply in_seq in Hm, Hk. rewrite lnn_at by lia. rewrite <- (rsum_mul_l K), <- (rsum_mul_r K). apply (rsum_ext K). intros x _.
    destruct (Z.eqb (Z.of_nat k) (ndx x)), (Z.eqb (Z.of_nat m) (ndx x)); ring.
  - apply (rsum_ext K). intros x Hx. rewrite <- (at_index A x Hx), <- (at_index B x Hx).
    rewrite <- (rsum_mul_l K). apply (rsum_ext K). intros m _. rewrite <- !(rsum_mul_r K). apply (rsum_ext K). intros k _. ring.
Qed.
Lemma corr_at : forall l i j, corr K L nl E T pi F Fm ph inv (l, (i, j)) =
  rsum (fun x => re_wdn (l, (i, ndx x)) * inv (gap x) * rsum (fun l' => im_wnd (l', (ndx x, j))) lds +
                 im_wdn (l, (i, ndx x)) * inv (gap x) * rsum (fun l' => re_wnd (l', (ndx x, j))) lds) prs.
Proof.
  intros l i j. unfold corr, wcorr. rewrite (rsum_plus K). f_equal.
  - rewrite <- (through (fun z => re_wdn (l, (i, z))) (fun z => rsum (fun l' => im_wnd (l', (z, j))) lds)).
    apply (rsum_ext K). intros m Hm. apply in_seq in Hm. rewrite (proj2 (snd_at m j ltac:(lia))). f_equal. apply (rsum_ext K). intros k Hk. apply in_seq in Hk.
    now rewrite col_at_re by lia.
  - rewrite <- (through (fun z => im_wdn (l, (i, z))) (fun z => rsum (fun l' => re_wnd (l', (z, j))) lds)).
    apply (rsum_ext K). intros m Hm. apply in_seq in Hm. rewrite (proj1 (snd_at m j ltac:(lia))). f_equal. apply (rsum_ext K). intros k Hk. apply in_seq in Hk.
    now rewrite col_at_im by lia.
Qed.

(** *** The elimination *)
Variable phi : Z -> K.
(** the diagonal operator with the probabilities phi0 *)
Definition diag_op : Op K := fun s t => if Nat.eqb s t then ofR (phi (ind0 L s s (Z.of_nat (N s)))) else 0.
(** the change of the coherence (s, t) by the probabilities alone *)
Definition drive (s t : nat) : C := rsum (fun l => lead diag_op l s t) lds.

Lemma ND_SS : NoDup SS.
Proof.
  unfold cons_states. assert (H : NoDup (charges L)) by apply charges_nodup.
  assert (HC : forall c, In c (charges L) -> (0 <= c)%Z) by (intros c Hc; apply charges_in in Hc; lia). revert H HC.
  generalize (charges L). intros l. induction l as [|c l IH]; intros H HC; cbn [flat_map]; [constructor|]. inversion H; subst. apply NoDup_app_intro.
  - apply (lo_nodup L LO). apply HC. now left.
  - apply IH; auto. intros c' Hc'. apply HC. now right.
  - intros b Hb Hin. apply in_flat_map in Hin. destruct Hin as (c' & Hc' & Hb'). apply H2. replace c with c'; auto. apply (lo_same L LO c' c b); auto; apply HC; simpl; auto.
Qed.
Lemma SS_here : forall s, In s SS -> here s (Z.of_nat (N s)).
Proof.
  intros s H. unfold cons_states in H. apply in_flat_map in H. destruct H as (c & Hc & H). apply charges_in in Hc.
  assert (Hh : here s c) by (split; auto; lia). now rewrite (here_N _ _ Hh).
Qed.
Lemma diag_herm : forall s t, In s SS -> In t SS -> conj (diag_op s t) = diag_op t s.
Proof.
  intros s t _ _. unfold diag_op. rewrite (Nat.eqb_sym t s). destruct (Nat.eqb_spec s t) as [->|]; [|apply conj_0].
  unfold ofR, conj. apply cplx_eq; simpl; ring.
Qed.
Lemma lead_herm : forall X l s t, In s SS -> In t SS -> conj (lead X l s t) = lead X l t s.
Proof.
  intros X l s t Hs Ht. unfold vn1_lead. apply (comm_herm K L (T l)); auto.
  - intros p q _ _. apply T_conj.
  - apply sym_herm.
Qed.
Lemma drive_herm : forall s t, In s SS -> In t SS -> conj (drive s t) = drive t s.
Proof. intros s t Hs Ht. unfold drive. rewrite rsum_conj. apply (rsum_ext C). intros l _. now apply lead_herm. Qed.
Lemma lead_diag : forall l p q, In p SS -> In q SS ->
  lead diag_op l p q = rsum (fun a => unit l p q a a * ofR (phi (ind0 L a a (Z.of_nat (N a))))) SS.
Proof.
  intros l p q Hp Hq. rewrite (vn1_units K SS N T amp0 amp1 ND_SS T_conj) by (auto; apply diag_herm).
  apply (rsum_ext C). intros s Hs. rewrite (rsum_ext C _ _ (fun t => if Nat.eqb t s then unit l p q s t * ofR (phi (ind0 L s s (Z.of_nat (N s)))) else 0)).
  - apply (rsum_if_nat C (fun t => unit l p q s t * _)); auto. apply ND_SS.
  - intros t _. unfold diag_op. rewrite (Nat.eqb_sym t s). destruct (Nat.eqb s t); ring.
Qed.
Lemma sum_np : forall (g : Z -> C), rsum (fun j => g (Z.of_nat j)) (seq 0 np) = rsum (fun a => g (ind0 L a a (Z.of_nat (N a)))) SS.
Proof.
  intros g. rewrite <- (rsum_map C _ _ g Z.of_nat). rewrite <- (items_number n name si L Hn Hix SY). rewrite (rsum_map C).
  unfold items, cons_states. rewrite !(rsum_flat_map C). apply (rsum_ext C). intros c Hc. apply charges_in in Hc. rewrite (rsum_map C). apply (rsum_ext C).
  intros b Hb. cbn [fst snd]. rewrite (here_N b c); auto. split; auto; lia.
Qed.
Lemma prs_sum : forall f : nat -> nat -> C,
  rsum (fun s => rsum (fun t => if negb (Nat.eqb s t) && Nat.eqb (N s) (N t) then f s t else 0) SS) SS = rsum (fun x => f (fst (fst x)) (snd (fst x))) prs.
Proof.
  intros f. unfold prs. unfold cons_states at 2. rewrite !(rsum_flat_map C). apply (rsum_ext C). intros c Hc. apply charges_in in Hc. rewrite (rsum_flat_map C).
  apply (rsum_ext C). intros s Hs. rewrite (rsum_flat_map C). rewrite <- (blk K L LO N CH c) by lia. apply (rsum_ext C). intros t Ht.
  assert (Hh : here s c) by (split; auto; lia). pose proof (here_N _ _ Hh).
  destruct (Nat.eqb s t); cbn [negb andb rsum fst snd].
  - now destruct (Z.eqb _ _).
  - destruct (Nat.eqb_spec (N s) (N t)), (Z.eqb_spec (Z.of_nat (N t)) c); try lia; ring.
Qed.

(** *** The first order *)
(** the part of Wdd that generate_row_1st_order_kernel stores *)
Variable pf : nat -> nat -> bool -> K.
Definition first : nat * (Z * Z) -> K := run_updates eq3 (each_state L (row1 K L nl pf)) zeros.
(** the table paulifct: 2 pi |T|^2 f *)
Hypothesis HP : forall l b c a, (0 <= c)%Z -> In b (states L c) -> In a (states L (c + 1)) ->
  ofR (pf l (ind1 L a b c) false) = (ofR ((1 + 1) * (pi * F l (E a - E b))) * (T l b a * T l a b) : C) /\
  ofR (pf l (ind1 L a b c) true) = (ofR ((1 + 1) * (pi * Fm l (E a - E b))) * (T l b a * T l a b) : C).
Definition wv (l : nat) (i : Z) (u : upd K) : C := if Nat.eqb l (fst (fst u)) && Z.eqb i (fst (snd (fst u))) then ofR (snd u * phi (snd (snd (fst u)))) else 0.
Lemma ofR_rsum : forall A (f : A -> K) l, (ofR (rsum f l) : C) = rsum (fun x => ofR (f x)) l.
Proof.
  induction l as [|x l IH]; cbn [rsum]; [reflexivity|]. rewrite <- IH. unfold ofR. apply cplx_eq; simpl; ring.
Qed.
Lemma row_sum : forall us l i, (forall u, In u us -> (0 <= snd (snd (fst u)) < Z.of_nat np)%Z) ->
  ofR (rsum (fun j => run_updates eq3 us zeros (l, (i, Z.of_nat j)) * phi (Z.of_nat j)) (seq 0 np)) = rsum (wv l i) us.
Proof.
  intros us l i H. rewrite ofR_rsum.
  rewrite (rsum_ext C _ _ (fun j => rsum (fun u => if eq3 (l, (i, Z.of_nat j)) (fst u) then ofR (snd u * phi (Z.of_nat j)) else 0 : C) us)).
  2:{ intros j _. rewrite run_updates_sum. unfold zeros. rewrite (Radd_0_l (rth K)), <- (rsum_mul_r K), ofR_rsum. apply (rsum_ext C). intros u _.
      destruct (eq3 _ _); auto. unfold ofR. apply cplx_eq; simpl; ring. }
  rewrite (rsum_swap C). apply (rsum_ext C). intros ((l', (i', j')), v) Hu. specialize (H _ Hu). unfold wv. cbn [fst snd] in *.
  rewrite (rsum_single C _ _ _ (Z.to_nat j')).
  - rewrite Z2Nat.id by lia. destruct (eq3 _ _) as [e|e].
    + injection e as -> ->. now rewrite Nat.eqb_refl, Z.eqb_refl.
    + destruct (Nat.eqb_spec l l'), (Z.eqb_spec i i'); auto. congruence.
  - apply seq_NoDup.
  - apply in_seq. lia.
  - intros y _ Ny. destruct (eq3 _ _) as [e|e]; auto. exfalso. apply Ny. injection e as _ _ <-. lia.
Qed.
Lemma diag_in : forall b c, here b c -> (0 <= ind0 L b b c < Z.of_nat np)%Z.
Proof. intros b c (Hc & Hb). destruct (lo_diag L LO b c Hc Hb) as (H & _). lia. Qed.
Lemma lead_pick : forall l b c a c2 (f g : nat -> K), (l < nl)%nat -> here b c -> here a c2 ->
  rsum (wv l (ind0 L b b c)) (flat_map (fun l' => set_dd K l' (f l') (g l') (ind0 L b b c) (ind0 L a a c2)) lds) =
  ofR (f l * phi (ind0 L b b c) + g l * phi (ind0 L a a c2)).
Proof.
  intros l b c a c2 f g Hl Hb Ha. rewrite (rsum_flat_map C), (rsum_single C _ _ _ l).
  - unfold set_dd, wv. cbn [rsum fst snd]. rewrite Nat.eqb_refl, Z.eqb_refl. cbn [andb]. unfold ofR. apply cplx_eq; simpl; ring.
  - apply seq_NoDup.
  - apply in_seq. lia.
  - intros y _ Ny. unfold set_dd, wv. cbn [rsum fst snd]. destruct (Nat.eqb_spec l y); [congruence|]. cbn [andb]. ring.
Qed.
Lemma row1_rows : forall b c u, here b c -> In u (row1 K L nl pf b c) ->
  fst (snd (fst u)) = ind0 L b b c /\ (0 <= snd (snd (fst u)) < Z.of_nat np)%Z.
Proof.
  intros b c u Hb H. unfold row1 in H. cbv zeta in H. apply in_app_iff in H. destruct H as [H|H];
    apply in_flat_map in H; destruct H as (a & Ha & H); apply in_flat_map in H; destruct H as (l' & _ & H);
    destruct H as [<-|[<-|[]]]; cbn [fst snd]; split; auto; apply diag_in; auto.
  - now apply (here_dn b).
  - now apply (here_up b).
Qed.
Theorem C55_first_order : forall l b c, (l < nl)%nat -> (0 <= c)%Z -> In b (states L c) ->
  rsum (fun j => first (l, (ind0 L b b c, Z.of_nat j)) * phi (Z.of_nat j)) (seq 0 np) = re (lead diag_op l b b).
Proof.
  intros l b c Hl Hc Hb. assert (Hh : here b c) by now split. pose proof (here_SS _ _ Hh) as HS. pose proof (here_range _ _ Hh) as Rc.
  transitivity (re (ofR (rsum (fun j => first (l, (ind0 L b b c, Z.of_nat j)) * phi (Z.of_nat j)) (seq 0 np)) : C)); [reflexivity|]. f_equal.
  unfold first. rewrite row_sum.
  2:{ intros u Hu. unfold each_state in Hu. apply in_flat_map in Hu. destruct Hu as (c' & Hc' & Hu). apply charges_in in Hc'.
      apply in_flat_map in Hu. destruct Hu as (b' & Hb' & Hu). destruct (is_unique L b' b' c'); [|destruct Hu].
      apply (row1_rows b' c'); auto. split; auto; lia. }
  unfold each_state. rewrite (rsum_flat_map C), (rsum_single C _ _ _ c).
  2:{ apply charges_nodup. }
  2:{ apply charges_in. lia. }
  2:{ intros c' Hc' Nc. apply charges_in in Hc'. rewrite (rsum_flat_map C). apply (rsum_0 C). intros y Hy.
      destruct (is_unique L y y c'); auto. apply (rsum_0 C). intros u Hu. unfold wv.
      assert (Hy' : here y c') by (split; auto; lia). destruct (row1_rows y c' u Hy' Hu) as (-> & _).
      destruct (Z.eqb_spec (ind0 L b b c) (ind0 L y y c')) as [e|]; [|now rewrite andb_false_r]. exfalso. apply Nc. now apply (diag_inj y c' b c). }
  rewrite (rsum_flat_map C), (rsum_single C _ _ _ b).
  2:{ now apply (lo_nodup L LO). }
  2:{ auto. }
  2:{ intros y Hy Nc. destruct (is_unique L y y c); auto. apply (rsum_0 C). intros u Hu. unfold wv.
      assert (Hy' : here y c) by (split; auto; lia). destruct (row1_rows y c u Hy' Hu) as (-> & _).
      destruct (Z.eqb_spec (ind0 L b b c) (ind0 L y y c)) as [e|]; [|now rewrite andb_false_r]. exfalso. apply Nc. now apply (diag_inj y c b c). }
  unfold is_unique. destruct (lo_diag L LO b c) as (_ & -> & _); auto. unfold row1. cbv zeta. rewrite (rsum_app C), !(rsum_flat_map C).
  (* the master equation *)
  rewrite lead_diag by auto. set (p := fun a : nat => ofR (phi (ind0 L a a (Z.of_nat (N a)))) : C).
  rewrite (rsum_ext C _ (fun a => unit l b b a a * _) (fun a => (if Nat.eqb a b then
      - Ci K * (rsum (fun u => T l b u * T l u b * g0 K N amp0 amp1 l u b) SS - rsum (fun u => T l b u * T l u b * g1 K N amp0 amp1 l b u) SS) * p b else 0)
      + (- Ci K * (T l b a * T l a b * p a) * g1 K N amp0 amp1 l a b - - Ci K * (T l b a * T l a b * p a) * g0 K N amp0 amp1 l b a))).
  2:{ intros a _. unfold unit_elem. fold (p a). rewrite (Nat.eqb_sym b a). destruct (Nat.eqb_spec a b) as [->|]; ring. }
  rewrite (rsum_plus C), (rsum_minus C). rewrite (rsum_if_nat C (fun _ => _)) by (auto using ND_SS).
  rewrite (sum_g0 (fun u => T l b u * T l u b) l b c Hh), (sum_g1 (fun u => T l b u * T l u b) l b c Hh).
  rewrite (rsum_ext C _ (fun a => - Ci K * (T l b a * T l a b * p a) * g1 K N amp0 amp1 l a b)
     (fun a => (if (N a =? S (N b))%nat then - Ci K * (T l b a * T l a b * p a) * A1 l (E a - E b) else 0) +
               (if (N b =? S (N a))%nat then - Ci K * (T l b a * T l a b * p a) * conj (A0 l (E b - E a)) else 0))).
  2:{ intros a _. unfold g1, amp0, amp1. rewrite (Nat.eqb_sym (S (N a))). destruct (N a =? S (N b))%nat, (N b =? S (N a))%nat; ring. }
  rewrite (rsum_ext C _ (fun a => - Ci K * (T l b a * T l a b * p a) * g0 K N amp0 amp1 l b a)
     (fun a => (if (N a =? S (N b))%nat then - Ci K * (T l b a * T l a b * p a) * conj (A1 l (E a - E b)) else 0) +
               (if (N b =? S (N a))%nat then - Ci K * (T l b a * T l a b * p a) * A0 l (E b - E a) else 0))).
  2:{ intros a _. unfold g0, amp0, amp1. rewrite (Nat.eqb_sym (S (N b))). destruct (N a =? S (N b))%nat, (N b =? S (N a))%nat; ring. }
  rewrite !(rsum_plus C), !(sum_up1 K L LO N CH b c), !(sum_up2 K L LO N CH b c) by auto.
  transitivity (rsum (fun x => - Ci K * p b * (T l b x * T l x b * (conj (A1 l (E b - E x)) - A1 l (E b - E x))) +
                               - Ci K * p x * (T l b x * T l x b * (conj (A0 l (E b - E x)) - A0 l (E b - E x)))) (states L (c - 1)) +
                rsum (fun x => - Ci K * p b * (T l b x * T l x b * (A0 l (E x - E b) - conj (A0 l (E x - E b)))) +
                               - Ci K * p x * (T l b x * T l x b * (A1 l (E x - E b) - conj (A1 l (E x - E b))))) (states L (c + 1))).
  - f_equal; apply (rsum_ext C); intros a Ha.
    + assert (Ha' : here a (c - 1)) by now apply (here_dn b).
      rewrite (lead_pick l b c a (c - 1) (fun l' => - pf l' (ind1 L b a (c - 1)) true) (fun l' => pf l' (ind1 L b a (c - 1)) false) Hl Hh Ha').
      destruct (HP l a (c - 1)%Z b) as (P0 & P1); [destruct Ha'; auto|auto|now replace (c - 1 + 1)%Z with c by lia|].
      unfold p. rewrite (here_N b c Hh), (here_N a _ Ha').
      transitivity (- ofR (pf l (ind1 L b a (c - 1)) true) * ofR (phi (ind0 L b b c)) + ofR (pf l (ind1 L b a (c - 1)) false) * ofR (phi (ind0 L a a (c - 1))) : C);
        [unfold ofR; apply cplx_eq; simpl; ring|]. rewrite P0, P1. unfold A0, A1, Ci, ofR. destruct (T l b a) as [x1 x2], (T l a b) as [y1 y2]. apply cplx_eq; simpl; ring.
    + assert (Ha' : here a (c + 1)) by now apply (here_up b).
      rewrite (lead_pick l b c a (c + 1) (fun l' => - pf l' (ind1 L a b c) false) (fun l' => pf l' (ind1 L a b c) true) Hl Hh Ha').
      destruct (HP l b c a) as (P0 & P1); auto.
      unfold p. rewrite (here_N b c Hh), (here_N a _ Ha').
      transitivity (- ofR (pf l (ind1 L a b c) false) * ofR (phi (ind0 L b b c)) + ofR (pf l (ind1 L a b c) true) * ofR (phi (ind0 L a a (c + 1))) : C);
        [unfold ofR; apply cplx_eq; simpl; ring|]. rewrite P0, P1. unfold A0, A1, Ci, ofR. destruct (T l b a) as [x1 x2], (T l a b) as [y1 y2]. apply cplx_eq; simpl; ring.
  - assert (B1 : forall (f g : nat -> C) l', rsum (fun x => - Ci K * p b * (T l b x * T l x b * (f x - g x))) l' =
       - Ci K * p b * (rsum (fun x => T l b x * T l x b * f x) l' - rsum (fun x => T l b x * T l x b * g x) l')).
    { intros f g l'. rewrite (rsum_mul_l C), <- (rsum_minus C). f_equal. apply (rsum_ext C). intros x _. ring. }
    assert (B2 : forall (f g : nat -> C) l', rsum (fun x => - Ci K * p x * (T l b x * T l x b * (f x - g x))) l' =
       rsum (fun x => - Ci K * (T l b x * T l x b * p x) * f x) l' - rsum (fun x => - Ci K * (T l b x * T l x b * p x) * g x) l').
    { intros f g l'. rewrite <- (rsum_minus C). apply (rsum_ext C). intros x _. ring. }
    rewrite !(rsum_plus C), !(B1 (fun x => _) (fun x => _)), !(B2 (fun x => _) (fun x => _)). ring.
Qed.

(** the coherences that belong to the probabilities when the leads act on the probabilities only; [gp s t] is the gap the code
    divides by, [deg] marks the pairs of one energy *)
Variables (deg : nat -> nat -> bool) (gp : nat -> nat -> K).
Local Notation live s t := (negb (Nat.eqb s t) && Nat.eqb (N s) (N t) && negb (deg s t)).
Definition eliminated (X : Op K) : Prop := forall s t, In s SS -> In t SS ->
  if live s t then - Ci K * ofR (gp s t) * X s t + drive s t = 0 else X s t = 0.
Hypothesis HD : forall s t, deg s t = deg t s.
Hypothesis HG : forall s t, gp t s = - gp s t.
Hypothesis HI : forall s t, In s SS -> In t SS -> s <> t -> N s = N t -> deg s t = false -> gp s t * inv (E s - E t) = 1.
Hypothesis HZ : forall s t, In s SS -> In t SS -> s <> t -> N s = N t -> deg s t = true -> inv (E t - E s) = inv (E s - E t).
Hypothesis H2 : forall x : K, x + x = 0 -> x = 0.
Definition solution : Op K := fun s t => if live s t then - Ci K * ofR (inv (E s - E t)) * drive s t else 0.
Lemma ofR_mul : forall x y : K, (ofR x : C) * ofR y = ofR (x * y).
Proof. intros. unfold ofR. apply cplx_eq; simpl; ring. Qed.
Lemma Ci2 : Ci K * Ci K = - (1 : C).
Proof. unfold Ci. apply cplx_eq; simpl; ring. Qed.
Lemma live_true : forall s t, live s t = true -> s <> t /\ N s = N t /\ deg s t = false.
Proof.
  intros s t H. apply andb_prop in H. destruct H as (H & H3). apply andb_prop in H. destruct H as (H1 & H4).
  destruct (Nat.eqb_spec s t); [easy|]. apply Nat.eqb_eq in H4. apply negb_true_iff in H3. auto.
Qed.
Lemma elim_unique : forall X, eliminated X -> forall s t, In s SS -> In t SS -> X s t = solution s t.
Proof.
  intros X H s t Hs Ht. specialize (H s t Hs Ht). unfold solution. destruct (live s t) eqn:EL; [|exact H]. apply live_true in EL. destruct EL as (E1 & E2 & E3).
  transitivity (Ci K * ofR (inv (E s - E t)) * (- Ci K * ofR (gp s t) * X s t + drive s t) + - Ci K * ofR (inv (E s - E t)) * drive s t);
    [|rewrite H; ring].
  transitivity (- (Ci K * Ci K) * (ofR (gp s t) * ofR (inv (E s - E t))) * X s t); [|ring].
  rewrite ofR_mul, HI, Ci2 by auto. change (ofR (1 : K)) with (1 : C). ring.
Qed.
Lemma solution_ok : eliminated solution.
Proof.
  intros s t Hs Ht. unfold solution. destruct (live s t) eqn:EL; [|reflexivity]. apply live_true in EL. destruct EL as (E1 & E2 & E3).
  transitivity ((Ci K * Ci K) * (ofR (gp s t) * ofR (inv (E s - E t))) * drive s t + drive s t); [ring|].
  rewrite ofR_mul, HI, Ci2 by auto. change (ofR (1 : K)) with (1 : C). ring.
Qed.
Lemma inv_anti : forall s t, In s SS -> In t SS -> s <> t -> N s = N t -> deg s t = false -> inv (E t - E s) = - inv (E s - E t).
Proof.
  intros s t Hs Ht Ne En Ed. pose proof (HI s t Hs Ht Ne En Ed) as H1. rewrite HD in Ed.
  pose proof (HI t s Ht Hs (not_eq_sym Ne) (eq_sym En) Ed) as H3. rewrite HG in H3.
  transitivity (inv (E t - E s) * (gp s t * inv (E s - E t))); [rewrite H1; ring|].
  transitivity (- (inv (E s - E t) * (- gp s t * inv (E t - E s)))); [ring|]. rewrite H3. ring.
Qed.
Lemma live_sym : forall s t, live t s = live s t.
Proof. intros s t. now rewrite (Nat.eqb_sym t s), (Nat.eqb_sym (N t)), (HD t s). Qed.
Lemma solution_herm : forall s t, In s SS -> In t SS -> conj (solution s t) = solution t s.
Proof.
  intros s t Hs Ht. unfold solution. rewrite (live_sym s t). destruct (live s t) eqn:EL; [|apply conj_0]. apply live_true in EL. destruct EL as (E1 & E2 & E3).
  rewrite !conj_mul, drive_herm by auto. rewrite (inv_anti s t) by auto. destruct (drive t s) as [d1 d2]. unfold Ci, ofR, conj. apply cplx_eq; simpl; ring.
Qed.
Lemma conj_sub : forall x y : C, conj (x - y) = conj x - conj y.
Proof. intros [x1 x2] [y1 y2]. apply cplx_eq; simpl; ring. Qed.
Lemma unit_herm : forall l b s t, conj (unit l b b s t) = unit l b b t s.
Proof.
  intros l b s t. unfold unit_elem.
  assert (G0 : forall u v, conj (g0 K N amp0 amp1 l u v) = g1 K N amp0 amp1 l v u).
  { intros u v. unfold g0, g1. rewrite conj_add, (Nat.eqb_sym (N v)), (Nat.eqb_sym (S (N v))), !conj_if, conj_conj. ring. }
  assert (G1 : forall u v, conj (g1 K N amp0 amp1 l u v) = g0 K N amp0 amp1 l v u) by (intros; now rewrite <- G0, conj_conj).
  rewrite conj_mul, conj_add, conj_sub, !conj_if, !conj_mul, conj_sub, !rsum_conj, G0, G1, !T_conj.
  rewrite (rsum_ext C _ (fun x => conj (T l b x * T l x s * g0 K N amp0 amp1 l x b)) (fun u => T l s u * T l u b * g1 K N amp0 amp1 l b u)).
  2:{ intros u _. rewrite !conj_mul, G0, !T_conj. ring. }
  rewrite (rsum_ext C _ (fun x => conj (T l t x * T l x b * g1 K N amp0 amp1 l b x)) (fun u => T l b u * T l u t * g0 K N amp0 amp1 l u b)).
  2:{ intros u _. rewrite !conj_mul, G1, !T_conj. ring. }
  rewrite (Nat.eqb_sym b t), (Nat.eqb_sym s b). replace (conj (- Ci K)) with (Ci K) by (unfold Ci; apply cplx_eq; simpl; ring).
  destruct (Nat.eqb t b), (Nat.eqb b s); ring.
Qed.
Lemma re_rsum : forall A (f : A -> C) l, re (rsum f l) = rsum (fun x => re (f x)) l.
Proof. induction l as [|x l IH]; auto. cbn [rsum]. now rewrite <- IH. Qed.
Lemma im_rsum : forall A (f : A -> C) l, im (rsum f l) = rsum (fun x => im (f x)) l.
Proof. induction l as [|x l IH]; auto. cbn [rsum]. now rewrite <- IH. Qed.

Lemma corr_row : forall l b cb, (l < nl)%nat -> here b cb ->
  rsum (fun j => corr K L nl E T pi F Fm ph inv (l, (ind0 L b b cb, Z.of_nat j)) * phi (Z.of_nat j)) (seq 0 np) =
  rsum (fun x => re (unit l b b (fst (fst x)) (snd (fst x)) * (- Ci K * ofR (inv (gap x)) * drive (fst (fst x)) (snd (fst x))))) prs.
Proof.
  intros l b cb Hl Hb.
  assert (W : forall x, In x prs -> re_wdn (l, (ind0 L b b cb, ndx x)) = re (unit l b b (fst (fst x)) (snd (fst x))) /\
                                    im_wdn (l, (ind0 L b b cb, ndx x)) = im (unit l b b (fst (fst x)) (snd (fst x)))).
  { intros ((s & t) & c) Hx. cbn [fst snd]. rewrite <- (dn_at l b cb s t c) by auto. rewrite <- wdn_parts. auto. }
  assert (V : forall x, In x prs -> rsum (fun j => ofR (phi (Z.of_nat j)) * rsum (fun l' => mkC (re_wnd (l', (ndx x, Z.of_nat j))) (im_wnd (l', (ndx x, Z.of_nat j))) : C) lds) (seq 0 np) =
                                    drive (fst (fst x)) (snd (fst x))).
  { intros ((s & t) & c) Hx. cbn [fst snd]. pose proof (proj1 (prs_in s t c) Hx) as (Hs & Ht & _).
    rewrite (sum_np (fun z => ofR (phi z) * rsum (fun l' => mkC (re_wnd (l', (nd_ind L s t c, z))) (im_wnd (l', (nd_ind L s t c, z))) : C) lds)).
    unfold drive. rewrite (rsum_ext C _ (fun l' => lead diag_op l' s t) (fun l' => rsum (fun a => unit l' s t a a * ofR (phi (ind0 L a a (Z.of_nat (N a))))) SS))
      by (intros l' _; apply lead_diag; [now apply (here_SS s c)|now apply (here_SS t c)]).
    rewrite (rsum_swap C). apply (rsum_ext C). intros a Ha. rewrite <- (rsum_mul_l C). apply (rsum_ext C). intros l' Hl'. apply in_seq in Hl'.
    rewrite wnd_parts, (nd_at l' a (Z.of_nat (N a)) s t c) by (auto; try lia; now apply SS_here). ring. }
  rewrite (rsum_ext K _ _ (fun j => rsum (fun x =>
     inv (gap x) * (re (unit l b b (fst (fst x)) (snd (fst x))) * (phi (Z.of_nat j) * rsum (fun l' => im_wnd (l', (ndx x, Z.of_nat j))) lds) +
                    im (unit l b b (fst (fst x)) (snd (fst x))) * (phi (Z.of_nat j) * rsum (fun l' => re_wnd (l', (ndx x, Z.of_nat j))) lds))) prs)).
  2:{ intros j _. rewrite corr_at, <- (rsum_mul_r K). apply (rsum_ext K). intros x Hx. destruct (W x Hx) as (-> & ->). ring. }
  rewrite (rsum_swap K). apply (rsum_ext K). intros x Hx. rewrite <- (V x Hx).
  set (D := unit l b b (fst (fst x)) (snd (fst x))).
  assert (RE : re (rsum (fun j => ofR (phi (Z.of_nat j)) * rsum (fun l' => mkC (re_wnd (l', (ndx x, Z.of_nat j))) (im_wnd (l', (ndx x, Z.of_nat j))) : C) lds) (seq 0 np)) =
     rsum (fun j => phi (Z.of_nat j) * rsum (fun l' => re_wnd (l', (ndx x, Z.of_nat j))) lds) (seq 0 np)).
  { rewrite re_rsum. apply (rsum_ext K). intros j _. simpl. rewrite re_rsum. simpl. ring. }
  assert (IM : im (rsum (fun j => ofR (phi (Z.of_nat j)) * rsum (fun l' => mkC (re_wnd (l', (ndx x, Z.of_nat j))) (im_wnd (l', (ndx x, Z.of_nat j))) : C) lds) (seq 0 np)) =
     rsum (fun j => phi (Z.of_nat j) * rsum (fun l' => im_wnd (l', (ndx x, Z.of_nat j))) lds) (seq 0 np)).
  { rewrite im_rsum. apply (rsum_ext K). intros j _. simpl. rewrite im_rsum. simpl. ring. }
  match goal with |- _ = re (_ * (_ * ?Y)) => set (YY := Y) in * end.
  rewrite (rsum_mul_l K), (rsum_plus K), !(rsum_mul_l K), <- RE, <- IM.
  destruct D as [d1 d2], YY as [y1 y2]. simpl. ring.
Qed.

(** the two orders of a pair of one energy cancel *)
Lemma deg_cancel : forall l b, rsum (fun s => rsum (fun t => if negb (Nat.eqb s t) && Nat.eqb (N s) (N t) && deg s t
    then re (unit l b b s t * (- Ci K * ofR (inv (E s - E t)) * drive s t)) else 0) SS) SS = 0.
Proof.
  intros l b. apply H2. match goal with |- ?x + ?y = 0 => transitivity (y + - y); [f_equal|ring] end.
  rewrite (rsum_swap K) at 1. rewrite <- (rsum_opp K). apply (rsum_ext K). intros s Hs. rewrite <- (rsum_opp K). apply (rsum_ext K). intros t Ht.
  rewrite (Nat.eqb_sym t s), (Nat.eqb_sym (N t)), (HD t s).
  destruct (Nat.eqb_spec s t); cbn [negb andb]; [ring|]. destruct (Nat.eqb_spec (N s) (N t)); cbn [negb andb]; [|ring].
  destruct (deg s t) eqn:ED; [|ring]. rewrite (HZ s t) by auto. rewrite <- (unit_herm l b s t), <- (drive_herm s t) by auto.
  destruct (unit l b b s t) as [d1 d2], (drive s t) as [y1 y2]. unfold conj, Ci, ofR. simpl. ring.
Qed.

(** C55: the corrections are what the leads make of the coherences that belong to the probabilities *)
Theorem C55_coherences : forall X, eliminated X -> forall l b c, (l < nl)%nat -> (0 <= c)%Z -> In b (states L c) ->
  rsum (fun j => corr K L nl E T pi F Fm ph inv (l, (ind0 L b b c, Z.of_nat j)) * phi (Z.of_nat j)) (seq 0 np) = re (lead X l b b).
Proof.
  intros X HX l b c Hl Hc Hb. assert (Hh : here b c) by now split. pose proof (here_SS _ _ Hh) as HS.
  rewrite (corr_row l b c Hl Hh). rewrite (vn1_units K SS N T amp0 amp1 ND_SS T_conj); auto.
  2:{ intros s t Hs Ht. rewrite !(elim_unique X HX) by auto. now apply solution_herm. }
  rewrite <- re_rsum. rewrite <- (prs_sum (fun s t => unit l b b s t * (- Ci K * ofR (inv (E s - E t)) * drive s t))).
  match goal with |- _ = ?y => transitivity (y + 0); [|ring] end. rewrite <- (deg_cancel l b).
  rewrite !re_rsum, <- (rsum_plus K). apply (rsum_ext K). intros s Hs. rewrite !re_rsum, <- (rsum_plus K). apply (rsum_ext K). intros t Ht.
  rewrite (elim_unique X HX) by auto. unfold solution.
  destruct (negb (Nat.eqb s t) && Nat.eqb (N s) (N t)), (deg s t); cbn [negb andb]; simpl; ring.
Qed.
(** the rates and the corrections together: the leads act on the probabilities and on their coherences *)
Theorem C55_kernel : forall X, eliminated X -> forall l b c, (l < nl)%nat -> (0 <= c)%Z -> In b (states L c) ->
  rsum (fun j => (first (l, (ind0 L b b c, Z.of_nat j)) + corr K L nl E T pi F Fm ph inv (l, (ind0 L b b c, Z.of_nat j))) * phi (Z.of_nat j)) (seq 0 np) =
  re (lead (op_add K diag_op X) l b b).
Proof.
  intros X HX l b c Hl Hc Hb. assert (Hh : here b c) by now split. pose proof (here_SS _ _ Hh) as HS.
  rewrite (rsum_ext K _ _ (fun j => first (l, (ind0 L b b c, Z.of_nat j)) * phi (Z.of_nat j) +
    corr K L nl E T pi F Fm ph inv (l, (ind0 L b b c, Z.of_nat j)) * phi (Z.of_nat j))) by (intros; ring).
  rewrite (rsum_plus K), C55_first_order, (C55_coherences X HX) by auto.
  assert (HX' : forall s t, In s SS -> In t SS -> conj (X s t) = X t s).
  { intros s t Hs Ht. rewrite !(elim_unique X HX) by auto. now apply solution_herm. }
  rewrite !(vn1_units K SS N T amp0 amp1 ND_SS T_conj); auto.
  - match goal with |- re ?x + re ?y = re ?z => change (re (x + y) = re z) end. f_equal. rewrite <- (rsum_plus C). apply (rsum_ext C). intros s _.
    rewrite <- (rsum_plus C). apply (rsum_ext C). intros t _. unfold op_add. ring.
  - intros s t Hs Ht. unfold op_add. now rewrite conj_add, HX', diag_herm.
  - intros s t Hs Ht. now apply diag_herm.
Qed.
(** there is exactly one such operator, and it is Hermitian *)
Theorem C55_exists : exists X, eliminated X /\ (forall s t, In s SS -> In t SS -> conj (X s t) = X t s) /\
  forall Y, eliminated Y -> forall s t, In s SS -> In t SS -> Y s t = X s t.
Proof. exists solution. split; [apply solution_ok|]. split; [apply solution_herm|]. intros Y HY. now apply elim_unique. Qed.
End C55.

(** *** What Wdd consists of *)
Section Parts.
Variable K : CRing.
Local Open Scope rng_scope.
Add Ring KrC55p : (rth K).
Variables (L : Lay) (nl : nat) (E : nat -> K) (T : nat -> nat -> nat -> Cx K) (pf : nat -> nat -> bool -> K) (pi : K) (F Fm ph : nat -> K -> K) (inv : K -> K).
Variables (intD intX : Z -> Z -> K -> K -> K -> nat -> nat -> bool -> Cx K) (is0 lt2 gt3 imgt3 : Cx K -> bool).
Definition second : nat * (Z * Z) -> K :=
  run_updates eq3 (each_state L (fun b c => flat_map (add2 K L) (col2 K L nl E T intD intX is0 lt2 gt3 imgt3 b c))) zeros.
Lemma each_app : forall (f g : nat -> Z -> list (upd K)) x,
  run_updates eq3 (each_state L (fun b c => f b c ++ g b c)) zeros x =
  run_updates eq3 (each_state L f) zeros x + run_updates eq3 (each_state L g) zeros x.
Proof.
  intros f g x. rewrite !run_updates_sum. unfold zeros, each_state. rewrite !(rsum_flat_map K).
  match goal with |- _ = 0 + ?a + (0 + ?b) => transitivity (a + b); [|ring] end. rewrite (Radd_0_l (rth K)), <- (rsum_plus K). apply (rsum_ext K). intros c _.
  rewrite !(rsum_flat_map K), <- (rsum_plus K). apply (rsum_ext K). intros b _. destruct (is_unique L b b c); [apply rsum_app|cbn [rsum]; ring].
Qed.
Theorem C55_parts : forall x,
  wdd K L nl E T pf pi F Fm ph intD intX is0 lt2 gt3 imgt3 (lnn K L E inv) (snd_im K L nl E T pi F Fm ph) (snd_re K L nl E T pi F Fm ph) true x =
  first K L nl pf x + second x + corr K L nl E T pi F Fm ph inv x.
Proof. intros x. unfold wdd, wdd0, first, second, corr. now rewrite each_app. Qed.
End Parts.
