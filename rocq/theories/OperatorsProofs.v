(** Lemmas connecting the update loops of Operators.v with the operators of Fock.v. *)
From Coq Require Import String List Arith Lia Bool ZArith.
From Verif Require Import Base Bits Indexing IndexingProofs RemoveProofs PropIndexing CRing Fock Operators.
Import ListNotations.
Open Scope nat_scope.
Local Notation length := List.length.

Lemma ones_charge : forall s, ones s = charge_of s.
Proof. induction s; simpl; auto. rewrite IHs. destruct a; reflexivity. Qed.
Lemma ones_electrons : forall s, ones s = electrons s.
Proof. intros. now rewrite ones_charge, electrons_charge. Qed.

Lemma index_of_spec : forall l x p, NoDup l -> p < length l ->
  index_of x l = Some p <-> nth p l 0 = x.
Proof.
  induction l as [|y l IH]; intros x p ND Hp; simpl in *; [lia|]. inversion ND; subst.
  destruct (Nat.eqb_spec x y) as [->|Hne].
  - destruct p; simpl; split; intros E; auto; try congruence.
    exfalso. apply H1. rewrite <- E. apply nth_In. lia.
  - destruct p; simpl.
    + split; [|congruence]. destruct (index_of x l); simpl; congruence.
    + rewrite <- IH by (auto; lia). destruct (index_of x l); simpl; split; congruence.
Qed.
Lemma index_of_in : forall l x, In x l -> exists p, index_of x l = Some p /\ p < length l /\ nth p l 0 = x.
Proof.
  induction l as [|y l IH]; intros x H; simpl in *; [destruct H|].
  destruct (Nat.eqb_spec x y) as [->|Hne].
  - exists 0. repeat split; auto. lia.
  - destruct H as [->|H]; [congruence|]. destruct (IH x H) as (p & A & B & E).
    exists (S p). rewrite A. repeat split; auto. simpl; lia.
Qed.
Lemma index_of_some : forall l x p, index_of x l = Some p -> p < length l /\ nth p l 0 = x.
Proof.
  induction l as [|y l IH]; intros x p H; simpl in *; [discriminate|].
  destruct (Nat.eqb_spec x y) as [->|Hne].
  - injection H as <-. split; auto. lia.
  - destruct (index_of x l) eqn:E; simpl in H; [|discriminate]. injection H as <-.
    destruct (IH x n E). split; auto. lia.
Qed.

(** ** reading an indexing *)
Section Index.
Variables (n : nat) (removed : list nat) (si : SI).
Hypothesis RC : removal_correct n removed si.

Lemma gi_cases : forall s, length s = n ->
  (exists k, get_ind si s = Ind k /\ k < si_nmany si /\ get_state si k = Some s) \/
  (get_ind si s = IndNone /\ forall k, k < si_nmany si -> get_state si k <> Some s).
Proof.
  intros s Hs. destruct RC as (R1 & R2 & R3 & _).
  destruct (in_dec Nat.eq_dec (binarylist_to_integer s) removed) as [H|H].
  - right. split; auto. intros k Hk E. destruct (R3 k Hk) as (s' & A & B & D & _). congruence.
  - left. auto.
Qed.
Lemma gs_len : forall k s, k < si_nmany si -> get_state si k = Some s -> length s = n.
Proof. intros k s Hk E. destruct RC as (_ & _ & R3 & _). destruct (R3 k Hk) as (s' & A & B & _). congruence. Qed.
Lemma gs_ex : forall k, k < si_nmany si -> exists s, get_state si k = Some s /\ length s = n.
Proof. intros k Hk. destruct RC as (_ & _ & R3 & _). destruct (R3 k Hk) as (s' & A & B & _). eauto. Qed.
Lemma gs_ind : forall k s, k < si_nmany si -> get_state si k = Some s -> get_ind si s = Ind k.
Proof. intros k s Hk E. destruct RC as (_ & _ & R3 & _). destruct (R3 k Hk) as (s' & A & B & D & F). congruence. Qed.
Lemma gs_inj : forall k k' s, k < si_nmany si -> k' < si_nmany si ->
  get_state si k = Some s -> get_state si k' = Some s -> k = k'.
Proof. intros k k' s H H' E E'. pose proof (gs_ind k s H E). pose proof (gs_ind k' s H' E'). congruence. Qed.

Variable K : CRing.
Notation C := (Cx K).
Add Ring CopsI : (rth C).
Local Open Scope rng_scope.

(** the amplitude written at the index of [u] is seen at [k'] exactly when state k' is [u] *)
Lemma hit : forall u ind k' s', get_ind si u = Ind ind -> length u = n ->
  (k' < si_nmany si)%nat -> get_state si k' = Some s' ->
  basis C u s' = if Nat.eqb k' ind then 1 else 0.
Proof.
  intros u ind k' s' G Hu Hk' E. destruct (gi_cases u Hu) as [(k & A & B & D)|(A & _)]; [|congruence].
  rewrite A in G. injection G as ->. destruct (Nat.eqb_spec k' ind) as [->|Hne].
  - assert (u = s') by congruence. subst. apply basis_refl.
  - apply basis_neq. intros ->. apply Hne. eapply gs_inj; eauto.
Qed.
Lemma miss : forall u k' s', get_ind si u = IndNone -> length u = n ->
  (k' < si_nmany si)%nat -> get_state si k' = Some s' -> basis C u s' = 0.
Proof.
  intros u k' s' G Hu Hk' E. destruct (gi_cases u Hu) as [(k & A & B & D)|(_ & N)]; [congruence|].
  apply basis_neq. intros ->. apply (N k' Hk' E).
Qed.
End Index.

(** ** sums over loops in which one column (and, for Hermitian completion, one row) contributes *)
Section Loop.
Variable K : CRing.
Add Ring KLoop : (rth K).
Local Open Scope rng_scope.

Lemma loop_column : forall A (F : nat -> A -> K) (D : A -> K) N k items, (k < N)%nat ->
  (forall j1 e, In e items -> (j1 < N)%nat -> F j1 e = if Nat.eqb j1 k then D e else 0) ->
  rsum (fun j1 => rsum (F j1) items) (seq 0 N) = rsum D items.
Proof.
  intros A F D N k items Hk H.
  rewrite (rsum_ext K _ _ (fun j1 => if Nat.eqb j1 k then rsum D items else 0)).
  - rewrite (rsum_if_nat K (fun _ => rsum D items)); auto. { apply seq_NoDup. } apply in_seq. lia.
  - intros j1 Hj. apply in_seq in Hj. rewrite (rsum_ext K _ _ (fun e => if Nat.eqb j1 k then D e else 0)).
    + destruct (Nat.eqb j1 k); auto. now apply rsum_0.
    + intros e He. apply H; auto. lia.
Qed.

Lemma loop_cross : forall A (F : nat -> A -> K) (D E : A -> K) N p q items, (p < N)%nat -> (q < N)%nat ->
  (forall j1 e, In e items -> (j1 < N)%nat ->
     F j1 e = (if Nat.eqb j1 q then D e else 0) + (if Nat.eqb j1 p then E e else 0)) ->
  rsum (fun j1 => rsum (F j1) items) (seq 0 N) = rsum (fun e => D e + E e) items.
Proof.
  intros A F D E N p q items Hp Hq H.
  rewrite (rsum_ext K _ _ (fun j1 => rsum (fun e => if Nat.eqb j1 q then D e else 0) items
                                 + rsum (fun e => if Nat.eqb j1 p then E e else 0) items)).
  - rewrite rsum_plus. rewrite rsum_plus. f_equal; [apply (loop_column _ _ D N q)|apply (loop_column _ _ E N p)]; auto.
  - intros j1 Hj. apply in_seq in Hj. rewrite <- rsum_plus. apply rsum_ext. intros e He. apply H; auto. lia.
Qed.
End Loop.

Section Signs.
Variable K : CRing.
Notation C := (Cx K).
Add Ring CopsS : (rth C).
Local Open Scope rng_scope.

Lemma nth_error_occ : forall s i, (i < length s)%nat -> nth_error s i = Some (occ_at i s).
Proof. intros. unfold occ_at. now apply nth_error_of_nth. Qed.

Definition wop (w : list (bool * nat)) (t s : list bool) : C := mel C (word C w) t s.

Lemma wop_nil : forall t s, wop [] t s = basis C s t.
Proof. reflexivity. Qed.
Lemma wop_snoc : forall w b i t s, length t = length s -> (i < length s)%nat ->
  wop (w ++ [(b, i)]) t s = if Bool.eqb (occ_at i s) b then 0 else jw C i s * wop w t (put i b s).
Proof. intros. now apply mel_snoc. Qed.

(** d_j^dagger d_i on a basis state, with the sign as computed by the code *)
Lemma hop_sign : forall i j t s, length t = length s -> (i < length s)%nat -> (j < length s)%nat -> i <> j ->
  wop [(true, j); (false, i)] t s =
  if occ_at i s && negb (occ_at j s)
  then sgn C (charge_of (firstn i s) + charge_of (firstn j s)) * pm K (j <? i) * basis C (put j true (put i false s)) t
  else 0.
Proof.
  intros i j t s HL Hi Hj Hne.
  change [(true, j); (false, i)] with ([(true, j)] ++ [(false, i)]). rewrite wop_snoc by auto.
  destruct (occ_at i s) eqn:Ei; cbn [negb andb Bool.eqb]; auto.
  change [(true, j)] with ([] ++ [(true, j)]). rewrite wop_snoc by (rewrite put_length; auto).
  rewrite occ_put_other by auto. destruct (occ_at j s) eqn:Ej; cbn [negb andb Bool.eqb]; [ring|].
  rewrite wop_nil. rewrite sgn_add. unfold jw at 1. rewrite ones_charge.
  destruct (Nat.ltb_spec j i) as [H|H].
  - rewrite jw_put_ge by lia. unfold jw. rewrite ones_charge. cbn [pm negb]. ring.
  - rewrite jw_put_flip' by (auto; lia). unfold jw. rewrite ones_charge. cbn [pm negb]. ring.
Qed.

Lemma num_sign : forall i t s, length t = length s -> (i < length s)%nat ->
  wop [(true, i); (false, i)] t s = if occ_at i s then basis C s t else 0.
Proof.
  intros i t s HL Hi.
  change [(true, i); (false, i)] with ([(true, i)] ++ [(false, i)]). rewrite wop_snoc by auto.
  destruct (occ_at i s) eqn:Ei; cbn [negb andb Bool.eqb]; auto.
  change [(true, i)] with ([] ++ [(true, i)]). rewrite wop_snoc by (rewrite put_length; auto).
  rewrite occ_put_same by auto. cbn [Bool.eqb]. rewrite wop_nil, jw_put_ge, put_put_same by auto.
  rewrite <- Ei, put_self. transitivity ((jw C i s * jw C i s) * basis C s t); [ring|]. rewrite jw_sq. ring.
Qed.

(** d_k d_l on a basis state *)
Lemma pair_ann : forall w k l t s, length t = length s -> (k < length s)%nat -> (l < length s)%nat -> k <> l ->
  wop (w ++ [(false, k); (false, l)]) t s =
  if occ_at k s && occ_at l s
  then sgn C (charge_of (firstn k s) + charge_of (firstn l s)) * pm K (negb (l <? k))
       * wop w t (put l false (put k false s))
  else 0.
Proof.
  intros w k l t s HL Hk Hl Hne.
  replace (w ++ [(false, k); (false, l)]) with ((w ++ [(false, k)]) ++ [(false, l)]) by (rewrite <- app_assoc; reflexivity).
  rewrite wop_snoc by auto. destruct (occ_at l s) eqn:El; cbn [negb andb Bool.eqb].
  2: { now rewrite andb_false_r. }
  rewrite wop_snoc by (rewrite put_length; auto). rewrite occ_put_other by auto.
  destruct (occ_at k s) eqn:Ek; cbn [negb andb Bool.eqb]; [|ring].
  rewrite (put_comm k l) by auto. rewrite sgn_add. unfold jw at 1. rewrite ones_charge.
  destruct (Nat.ltb_spec l k) as [H|H].
  - rewrite jw_put_flip' by (auto; lia). unfold jw. rewrite ones_charge. cbn [pm negb]. ring.
  - rewrite jw_put_ge by lia. unfold jw. rewrite ones_charge. cbn [pm negb]. ring.
Qed.
Lemma pair_cre : forall w m n t s, length t = length s -> (m < length s)%nat -> (n < length s)%nat -> m <> n ->
  wop (w ++ [(true, m); (true, n)]) t s =
  if negb (occ_at m s) && negb (occ_at n s)
  then sgn C (charge_of (firstn n s) + charge_of (firstn m s)) * pm K (m <? n)
       * wop w t (put n true (put m true s))
  else 0.
Proof.
  intros w m n t s HL Hm Hn Hne.
  replace (w ++ [(true, m); (true, n)]) with ((w ++ [(true, m)]) ++ [(true, n)]) by (rewrite <- app_assoc; reflexivity).
  rewrite wop_snoc by auto. destruct (occ_at n s) eqn:El; cbn [negb andb Bool.eqb].
  1: { now rewrite andb_false_r. }
  rewrite wop_snoc by (rewrite put_length; auto). rewrite occ_put_other by auto.
  destruct (occ_at m s) eqn:Ek; cbn [negb andb Bool.eqb]; [ring|].
  rewrite (put_comm m n) by auto. rewrite sgn_add. unfold jw at 1. rewrite ones_charge.
  destruct (Nat.ltb_spec m n) as [H|H].
  - rewrite jw_put_ge by lia. unfold jw. rewrite ones_charge. cbn [pm negb]. ring.
  - rewrite jw_put_flip' by (auto; lia). unfold jw. rewrite ones_charge. cbn [pm negb]. ring.
Qed.
(** d_k d_k = 0 *)
Lemma same_ann : forall w k t s, length t = length s -> (k < length s)%nat -> wop (w ++ [(false, k); (false, k)]) t s = 0.
Proof.
  intros w k t s HL Hk.
  replace (w ++ [(false, k); (false, k)]) with ((w ++ [(false, k)]) ++ [(false, k)]) by (rewrite <- app_assoc; reflexivity).
  rewrite wop_snoc by auto. destruct (occ_at k s); cbn [negb andb Bool.eqb]; auto.
  rewrite wop_snoc by (rewrite put_length; auto). rewrite occ_put_same by auto. cbn [Bool.eqb]. ring.
Qed.
Lemma same_cre : forall w k t s, length t = length s -> (k < length s)%nat -> wop (w ++ [(true, k); (true, k)]) t s = 0.
Proof.
  intros w k t s HL Hk.
  replace (w ++ [(true, k); (true, k)]) with ((w ++ [(true, k)]) ++ [(true, k)]) by (rewrite <- app_assoc; reflexivity).
  rewrite wop_snoc by auto. destruct (occ_at k s); cbn [negb andb Bool.eqb]; auto.
  rewrite wop_snoc by (rewrite put_length; auto). rewrite occ_put_same by auto. cbn [Bool.eqb]. ring.
Qed.

Lemma conj_basis : forall s t, conj (basis C s t) = basis C s t.
Proof. intros. unfold basis. destruct (list_eq_dec bool_dec t s); [apply conj_1|apply conj_0]. Qed.
Lemma conj_wop : forall w t s, length t = length s -> (forall b i, In (b, i) w -> (i < length s)%nat) -> conj (wop w t s) = wop w t s.
Proof.
  intros w. induction w as [|[b i] w IH]; intros t s HL Hw.
  - rewrite wop_nil. apply conj_basis.
  - unfold wop in *. rewrite mel_cons. destruct (Bool.eqb (occ_at i t) b); [|apply conj_0].
    rewrite conj_mul, IH. { unfold jw. now rewrite conj_sgn. } { now rewrite put_length. }
    intros b' i' H. eapply Hw. simpl; eauto.
Qed.
Lemma wop_adjoint : forall w t s, length t = length s -> (forall b i, In (b, i) w -> (i < length s)%nat) ->
  wop w t s = wop (wadj w) s t.
Proof. intros. now apply word_adjoint. Qed.
End Signs.
