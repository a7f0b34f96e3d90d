(** Quantum-number dictionaries: qmeq/indexing.py 372-417 make_quantum_numbers. *)
From Coq Require Import String List Arith Lia ZArith Bool Permutation.
From Verif Require Import Base Bits Indexing IndexingProofs RemoveProofs Binom SsqProofs.
Import ListNotations.
Open Scope nat_scope.
Local Notation length := List.length.

(** ** Python dictionaries as association lists; [dict_set] overwrites an existing key *)
Fixpoint dict_set {K V} (eqb : K -> K -> bool) (k : K) (v : V) (d : list (K * V)) : list (K * V) :=
  match d with
  | [] => [(k, v)]
  | (k', v') :: d' => if eqb k k' then (k', v) :: d' else (k', v') :: dict_set eqb k v d'
  end.
Fixpoint dict_get {K V} (eqb : K -> K -> bool) (k : K) (d : list (K * V)) : option V :=
  match d with
  | [] => None
  | (k', v) :: d' => if eqb k k' then Some v else dict_get eqb k d'
  end.

Section Dict.
Variables (K V : Type) (eqb : K -> K -> bool).
Hypothesis eqb_ok : forall a b, eqb a b = true <-> a = b.

Lemma eqb_refl' : forall a, eqb a a = true.
Proof. intros; now apply eqb_ok. Qed.
Lemma eqb_neq' : forall a b, a <> b -> eqb a b = false.
Proof. intros a b H. destruct (eqb a b) eqn:E; auto. apply eqb_ok in E. contradiction. Qed.

Lemma dict_get_set_same : forall (d : list (K * V)) k v, dict_get eqb k (dict_set eqb k v d) = Some v.
Proof.
  induction d as [|[k' v'] d IH]; simpl; intros k v.
  - now rewrite eqb_refl'.
  - destruct (eqb k k') eqn:E; simpl; rewrite E; auto.
Qed.

Lemma dict_get_set_other : forall (d : list (K * V)) k k' v, k <> k' ->
  dict_get eqb k (dict_set eqb k' v d) = dict_get eqb k d.
Proof.
  induction d as [|[k1 v1] d IH]; simpl; intros k k' v H.
  - now rewrite eqb_neq'.
  - destruct (eqb k' k1) eqn:E; simpl.
    + apply eqb_ok in E. subst. rewrite eqb_neq' by auto. reflexivity.
    + destruct (eqb k k1); auto.
Qed.

Definition dict_build (ps : list (K * V)) : list (K * V) :=
  fold_left (fun d p => dict_set eqb (fst p) (snd p) d) ps [].

(** Without repeated keys the dictionary is the relation. *)
Lemma dict_build_get : forall ps k v, NoDup (map fst ps) ->
  (dict_get eqb k (dict_build ps) = Some v <-> In (k, v) ps).
Proof.
  intros ps k v. unfold dict_build.
  assert (G : forall ps d, NoDup (map fst ps) ->
    dict_get eqb k (fold_left (fun d p => dict_set eqb (fst p) (snd p) d) ps d) = Some v <->
    In (k, v) ps \/ (~ In k (map fst ps) /\ dict_get eqb k d = Some v)).
  { clear ps. induction ps as [|[k1 v1] ps IH]; simpl; intros d ND.
    - split; [auto|intros [[]|[_ H]]; auto].
    - inversion ND as [|? ? Hn ND']; subst. rewrite IH by auto. split.
      + intros [H|[Hn' H]]; auto.
        assert (Hd : k = k1 \/ k <> k1).
        { destruct (eqb k k1) eqn:E; [left; now apply eqb_ok|right; intros ->; rewrite eqb_refl' in E; discriminate]. }
        destruct Hd as [->|Hne].
        * rewrite dict_get_set_same in H. injection H as ->. auto.
        * rewrite dict_get_set_other in H by auto. right. split; auto. intros [E|E]; auto.
      + intros [[H|H]|[Hn' H]]; auto.
        * injection H as -> ->. right. split; auto. apply dict_get_set_same.
        * right. split; auto. rewrite dict_get_set_other; auto. }
  intros ND. rewrite (G ps [] ND). simpl. intuition discriminate.
Qed.
End Dict.

(** ** The loops of make_quantum_numbers *)

Definition list_Z_eqb (a b : list Z) : bool := if list_eq_dec Z.eq_dec a b then true else false.
Lemma list_Z_eqb_ok : forall a b, list_Z_eqb a b = true <-> a = b.
Proof. intros. unfold list_Z_eqb. destruct (list_eq_dec Z.eq_dec a b); intuition discriminate. Qed.

(** [for alpha in range(len(block))]: keys [(pre..., alpha)], values [block[alpha]] *)
Definition block_pairs (pre : list Z) (block : list nat) : list (list Z * nat) :=
  map (fun alpha => (pre ++ [Z.of_nat alpha], nth alpha block 0)) (seq 0 (length block)).

(** indexing.py 390-416: the (quantum number, state index) pairs in the order in which they are
    entered into both dictionaries.  A tuple of integers is modelled as a list of integers. *)
Definition qn_pairs (si : SI) : list (list Z * nat) :=
  let n := si_nsingle si in
  match si_indexing si with
  | IxSsq =>
      flat_map (fun charge =>
        flat_map (fun sz =>
          let szind := Z.to_nat (sz_to_ind sz charge n) in
          flat_map (fun ssq =>
            let ssqind := Z.to_nat (ssq_to_ind ssq sz) in
            block_pairs [Z.of_nat charge; sz; ssq]
              (nth ssqind (nth szind (nth charge
                  (match si_ssqlst si with Some l => l | None => [] end) []) []) []))
            (ssqrange charge sz n))
          (szrange charge n))
        (seq 0 (si_ncharge si))
  | IxSz =>
      flat_map (fun charge =>
        flat_map (fun sz =>
          let szind := Z.to_nat (sz_to_ind sz charge n) in
          block_pairs [Z.of_nat charge; sz]
            (nth szind (nth charge (match si_szlst si with Some l => l | None => [] end) []) []))
          (szrange charge n))
        (seq 0 (si_ncharge si))
  | _ =>
      flat_map (fun charge => block_pairs [Z.of_nat charge] (nth charge (si_chargelst si) []))
        (seq 0 (si_ncharge si))
  end.

(** indexing.py 372-417 *)
Definition make_quantum_numbers (si : SI) : list (list Z * nat) * list (nat * list Z) :=
  (dict_build _ _ list_Z_eqb (qn_pairs si),
   dict_build _ _ Nat.eqb (map (fun p => (snd p, fst p)) (qn_pairs si))).

Definition qn_ind (si : SI) (q : list Z) : option nat := dict_get list_Z_eqb q (fst (make_quantum_numbers si)).
Definition ind_qn (si : SI) (k : nat) : option (list Z) := dict_get Nat.eqb k (snd (make_quantum_numbers si)).

(** ** Cells *)
Lemma flat_map_flat_map : forall A B C (f : A -> list B) (g : B -> list C) l,
  flat_map g (flat_map f l) = flat_map (fun a => flat_map g (f a)) l.
Proof. induction l; simpl; auto. now rewrite flat_map_app, IHl. Qed.

Lemma flat_map_map : forall A B C (f : A -> B) (g : B -> list C) l,
  flat_map g (map f l) = flat_map (fun a => g (f a)) l.
Proof. induction l; simpl; auto. now rewrite IHl. Qed.

Lemma NoDup_flat_map : forall A B (f : A -> list B) l, NoDup l ->
  (forall x, In x l -> NoDup (f x)) ->
  (forall x y b, In x l -> In y l -> In b (f x) -> In b (f y) -> x = y) ->
  NoDup (flat_map f l).
Proof.
  induction l as [|a l IH]; simpl; intros ND H1 H2; [constructor|].
  inversion ND; subst. apply NoDup_app_intro; auto.
  - apply IH; auto. intros; eapply H2; eauto.
  - intros b Hb Hb'. apply in_flat_map in Hb'. destruct Hb' as (y & Hy & Hb').
    assert (a = y) by (eapply H2; eauto). subst. contradiction.
Qed.

Lemma block_pairs_in : forall pre b q k, In (q, k) (block_pairs pre b) <->
  exists a, a < length b /\ q = pre ++ [Z.of_nat a] /\ k = nth a b 0.
Proof.
  intros. unfold block_pairs. rewrite in_map_iff. split.
  - intros (a & E & Ha). injection E as <- <-. apply in_seq in Ha. exists a. repeat split; auto; lia.
  - intros (a & Ha & -> & ->). exists a. split; auto. apply in_seq. lia.
Qed.

Lemma block_pairs_snd : forall pre b, map snd (block_pairs pre b) = b.
Proof.
  intros. unfold block_pairs. rewrite map_map. simpl. symmetry. apply list_as_map_nth.
Qed.

Lemma app_last_inj : forall A (p q : list A) a b, p ++ [a] = q ++ [b] -> p = q /\ a = b.
Proof. intros. now apply app_inj_tail. Qed.

Lemma block_pairs_fst_nodup : forall pre b, NoDup (map fst (block_pairs pre b)).
Proof.
  intros. unfold block_pairs. rewrite map_map. simpl.
  apply FinFun.Injective_map_NoDup; [|apply seq_NoDup].
  intros x y E. apply app_last_inj in E. lia.
Qed.

Lemma map_flat_map : forall A B C (g : B -> C) (f : A -> list B) l,
  map g (flat_map f l) = flat_map (fun a => map g (f a)) l.
Proof. induction l; simpl; auto. now rewrite map_app, IHl. Qed.

(** Cells with distinct prefixes and disjoint repetition-free contents. *)
Record cells_ok {X} (cells : list X) (pre : X -> list Z) (blk : X -> list nat) (m : nat) : Prop := {
  co_nodup : NoDup cells;
  co_inj : forall x y, In x cells -> In y cells -> pre x = pre y -> x = y;
  co_blk : forall x, In x cells -> NoDup (blk x);
  co_disj : forall x y k, In x cells -> In y cells -> In k (blk x) -> In k (blk y) -> x = y;
  co_cover : forall k, (exists x, In x cells /\ In k (blk x)) <-> k < m
}.

Definition inverse_on (f : list Z -> option nat) (g : nat -> option (list Z)) (m : nat) : Prop :=
  (forall q k, f q = Some k <-> g k = Some q) /\ (forall k, (exists q, g k = Some q) <-> k < m).

Lemma cells_inverse : forall X (cells : list X) pre blk m, cells_ok cells pre blk m ->
  let ps := flat_map (fun x => block_pairs (pre x) (blk x)) cells in
  inverse_on (fun q => dict_get list_Z_eqb q (dict_build _ _ list_Z_eqb ps))
             (fun k => dict_get Nat.eqb k (dict_build _ _ Nat.eqb (map (fun p => (snd p, fst p)) ps))) m
  /\ (forall q k, dict_get list_Z_eqb q (dict_build _ _ list_Z_eqb ps) = Some k ->
        exists x a, In x cells /\ a < length (blk x) /\ q = pre x ++ [Z.of_nat a] /\ k = nth a (blk x) 0).
Proof.
  intros X cells pre blk m CO ps.
  assert (N1 : NoDup (map fst ps)).
  { unfold ps. rewrite map_flat_map. apply NoDup_flat_map.
    - apply (co_nodup _ _ _ _ CO).
    - intros. apply block_pairs_fst_nodup.
    - intros x y q Hx Hy Hqx Hqy. apply in_map_iff in Hqx, Hqy.
      destruct Hqx as ([q1 k1] & E1 & H1). destruct Hqy as ([q2 k2] & E2 & H2). simpl in *. subst q1 q2.
      apply block_pairs_in in H1, H2. destruct H1 as (a & _ & Ea & _). destruct H2 as (b & _ & Eb & _).
      apply (co_inj _ _ _ _ CO); auto. rewrite Ea in Eb. now apply app_last_inj in Eb. }
  assert (N2 : NoDup (map snd ps)).
  { unfold ps. rewrite map_flat_map. apply NoDup_flat_map.
    - apply (co_nodup _ _ _ _ CO).
    - intros. rewrite block_pairs_snd. now apply (co_blk _ _ _ _ CO).
    - intros x y k Hx Hy. rewrite !block_pairs_snd. now apply (co_disj _ _ _ _ CO). }
  assert (N3 : NoDup (map fst (map (fun p => (snd p, fst p)) ps))).
  { rewrite map_map. exact N2. }
  assert (D1 : forall q k, dict_get list_Z_eqb q (dict_build _ _ list_Z_eqb ps) = Some k <-> In (q, k) ps).
  { intros. apply dict_build_get; auto. apply list_Z_eqb_ok. }
  assert (D2 : forall q k, dict_get Nat.eqb k (dict_build _ _ Nat.eqb (map (fun p => (snd p, fst p)) ps)) = Some q
              <-> In (q, k) ps).
  { intros. rewrite dict_build_get by (auto using Nat.eqb_eq). rewrite in_map_iff. split.
    - intros ([q' k'] & E & H). injection E as <- <-. auto.
    - intros H. exists (q, k). auto. }
  split; [split|].
  - intros. now rewrite D1, D2.
  - intros k. rewrite <- (co_cover _ _ _ _ CO). split.
    + intros (q & H). apply D2 in H. unfold ps in H. apply in_flat_map in H.
      destruct H as (x & Hx & H). exists x. split; auto. apply block_pairs_in in H.
      destruct H as (a & Ha & _ & ->). now apply nth_In.
    + intros (x & Hx & H). apply In_nth with (d := 0) in H. destruct H as (a & Ha & E).
      exists (pre x ++ [Z.of_nat a]). apply D2. apply in_flat_map. exists x. split; auto.
      apply block_pairs_in. eauto.
  - intros q k H. apply D1 in H. unfold ps in H. apply in_flat_map in H.
    destruct H as (x & Hx & H). apply block_pairs_in in H. destruct H as (a & H1 & H2 & H3). eauto 7.
Qed.

(** ** The three families of cells *)
Lemma charge_cells : forall si live, si_ok si live -> si_ncharge si = si_nsingle si + 1 ->
  cells_ok (seq 0 (si_ncharge si)) (fun c => [Z.of_nat c]) (fun c => nth c (si_chargelst si) [])
           (length (si_i si)).
Proof.
  intros si live OK Hn. rewrite Hn. constructor.
  - apply seq_NoDup.
  - intros x y _ _ E. injection E as E. lia.
  - intros. apply (ok_cl_nodup _ _ OK).
  - intros x y k Hx Hy H1 H2. apply in_seq in Hx, Hy.
    apply (ok_cl_in _ _ OK) in H1; [|lia]. apply (ok_cl_in _ _ OK) in H2; [|lia]. lia.
  - intros k. split.
    + intros (x & Hx & H). apply in_seq in Hx. apply (ok_cl_in _ _ OK) in H; [|lia]. tauto.
    + intros Hk. exists (occ_charge (si_nsingle si) (nth k (si_i si) 0)).
      assert (Hc : occ_charge (si_nsingle si) (nth k (si_i si) 0) <= si_nsingle si).
      { apply occ_charge_le. apply (ok_i_in _ _ OK). apply nth_In; auto. }
      split; [apply in_seq; lia|]. apply (ok_cl_in _ _ OK); auto.
Qed.

Definition sz_cells (n nc : nat) : list (nat * Z) :=
  flat_map (fun c => map (fun sz => (c, sz)) (szrange c n)) (seq 0 nc).

Lemma sz_cells_in : forall n nc c sz, In (c, sz) (sz_cells n nc) <-> c < nc /\ In sz (szrange c n).
Proof.
  intros. unfold sz_cells. rewrite in_flat_map. split.
  - intros (x & Hx & H). apply in_map_iff in H. destruct H as (z & E & H). injection E as -> ->.
    apply in_seq in Hx. split; auto; lia.
  - intros [H1 H2]. exists c. split; [apply in_seq; lia|]. apply in_map_iff. eauto.
Qed.

Lemma range2_nodup : forall lo hi, NoDup (range2 lo hi).
Proof.
  intros. unfold range2. apply FinFun.Injective_map_NoDup; [|apply seq_NoDup]. intros x y E. lia.
Qed.

Lemma sz_cells_nodup : forall n nc, NoDup (sz_cells n nc).
Proof.
  intros. unfold sz_cells. apply NoDup_flat_map.
  - apply seq_NoDup.
  - intros. apply FinFun.Injective_map_NoDup; [|apply range2_nodup]. intros a b E. now injection E.
  - intros x y b _ _ H1 H2. apply in_map_iff in H1, H2.
    destruct H1 as (? & E1 & _). destruct H2 as (? & E2 & _). congruence.
Qed.

(** every live state's sz is in the range of its charge *)
Lemma occ_sz_in_range : forall n x, Nat.even n = true -> x < 2 ^ n ->
  exists k, k < length (szrange (occ_charge n x) n) /\ occ_sz n x = nth k (szrange (occ_charge n x) n) 0%Z.
Proof.
  intros n x He Hx. exists (occ_szind n x).
  pose proof (occ_szind_range n x He Hx) as R. split; [exact R|].
  apply occ_szind_iff; auto.
Qed.

Section SzCells.
Variables (si : SI) (live : nat -> bool).
Hypothesis OK : si_ok si live.
Hypothesis Hnc : si_ncharge si = si_nsingle si + 1.
Hypothesis He : Nat.even (si_nsingle si) = true.
Hypothesis SZ : sz_ok si.
Let n := si_nsingle si.
Let szl := match si_szlst si with Some l => l | None => [] end.
Definition sz_blk (x : nat * Z) : list nat :=
  nth (Z.to_nat (sz_to_ind (snd x) (fst x) n)) (nth (fst x) szl []) [].

Lemma sz_blk_in : forall c sz p, c <= n -> In sz (szrange c n) ->
  (In p (sz_blk (c, sz)) <-> p < length (si_i si) /\
     occ_charge n (nth p (si_i si) 0) = c /\ occ_sz n (nth p (si_i si) 0) = sz).
Proof.
  intros c sz p Hc Hin. destruct SZ as (L & EL & _ & H). specialize (H c Hc). destruct H as [_ H].
  apply In_nth with (d := 0%Z) in Hin. destruct Hin as (k & Hk & E).
  destruct (H k Hk) as [_ HP]. unfold sz_blk, szl. rewrite EL. simpl fst. simpl snd.
  rewrite <- E. rewrite szrange_pos by auto. apply HP.
Qed.

Lemma sz_blk_nodup : forall c sz, c <= n -> In sz (szrange c n) -> NoDup (sz_blk (c, sz)).
Proof.
  intros c sz Hc Hin. destruct SZ as (L & EL & _ & H). specialize (H c Hc). destruct H as [_ H].
  apply In_nth with (d := 0%Z) in Hin. destruct Hin as (k & Hk & E).
  destruct (H k Hk) as [(s & l & HS) _]. unfold sz_blk, szl. rewrite EL. simpl fst. simpl snd.
  rewrite <- E. rewrite szrange_pos by auto. fold n in HS. rewrite HS. apply seq_NoDup.
Qed.

Lemma szcells_ok : cells_ok (sz_cells n (si_ncharge si)) (fun x => [Z.of_nat (fst x); snd x]) sz_blk
                    (length (si_i si)).
Proof.
  rewrite Hnc. constructor.
  - apply sz_cells_nodup.
  - intros [c sz] [c' sz'] _ _ E. simpl in E. injection E as E1 E2. f_equal; auto. lia.
  - intros [c sz] H. apply sz_cells_in in H. apply sz_blk_nodup; [fold n in H; lia|tauto].
  - intros [c sz] [c' sz'] k H H' H1 H2. apply sz_cells_in in H, H'. fold n in H, H'.
    apply sz_blk_in in H1; [|lia|tauto]. apply sz_blk_in in H2; [|lia|tauto].
    destruct H1 as (_ & <- & <-). destruct H2 as (_ & <- & <-). reflexivity.
  - intros k. split.
    + intros ([c sz] & H & H1). apply sz_cells_in in H. fold n in H. apply sz_blk_in in H1; [|lia|]; tauto.
    + intros Hk. assert (Hx : nth k (si_i si) 0 < 2 ^ n) by (apply (ok_i_in _ _ OK); apply nth_In; auto).
      destruct (occ_sz_in_range n _ He Hx) as (q & Hq & Eq).
      pose proof (occ_charge_le n _ Hx) as Hc.
      exists (occ_charge n (nth k (si_i si) 0), occ_sz n (nth k (si_i si) 0)). split.
      * apply sz_cells_in. split; [fold n; lia|]. rewrite Eq. now apply nth_In.
      * apply sz_blk_in; auto. rewrite Eq. now apply nth_In.
Qed.

(** total-spin cells, when the rows refine the sz blocks *)
Let ssql := match si_ssqlst si with Some l => l | None => [] end.
Hypothesis REF : map (map (@concat nat)) ssql = szl.
Hypothesis SHAPE : forall c k, c <= n -> k < length (szrange c n) ->
   length (nth k (nth c ssql []) []) = length (ssqrange c (nth k (szrange c n) 0%Z) n).

Definition ssq_cells : list (nat * Z * Z) :=
  flat_map (fun x => map (fun q => (x, q)) (ssqrange (fst x) (snd x) n)) (sz_cells n (si_ncharge si)).
Definition ssq_blk (x : nat * Z * Z) : list nat :=
  nth (Z.to_nat (ssq_to_ind (snd x) (snd (fst x))))
      (nth (Z.to_nat (sz_to_ind (snd (fst x)) (fst (fst x)) n)) (nth (fst (fst x)) ssql []) []) [].

Lemma ssq_cells_in : forall x q, In (x, q) ssq_cells <->
  In x (sz_cells n (si_ncharge si)) /\ In q (ssqrange (fst x) (snd x) n).
Proof.
  intros. unfold ssq_cells. rewrite in_flat_map. split.
  - intros (y & Hy & H). apply in_map_iff in H. destruct H as (z & E & H). injection E as -> ->. auto.
  - intros [H1 H2]. exists x. split; auto. apply in_map_iff. eauto.
Qed.

Lemma ssq_row : forall c k, concat (nth k (nth c ssql []) []) = nth k (nth c szl []) [].
Proof.
  intros. rewrite <- REF.
  rewrite <- (map_nth (@concat nat)), <- (map_nth (map (@concat nat))). reflexivity.
Qed.

Lemma ssq_pos : forall c k q, c <= n -> k < length (szrange c n) ->
  In q (ssqrange c (nth k (szrange c n) 0%Z) n) ->
  exists t, t < length (ssqrange c (nth k (szrange c n) 0%Z) n) /\
    Z.to_nat (ssq_to_ind q (nth k (szrange c n) 0%Z)) = t /\
    nth t (ssqrange c (nth k (szrange c n) 0%Z) n) 0%Z = q.
Proof.
  intros c k q Hc Hk Hq. apply In_nth with (d := 0%Z) in Hq. destruct Hq as (t & Ht & E).
  exists t. split; auto. split; auto. rewrite szrange_len in Hk by auto.
  destruct (ssqrange_facts n c k) as [HL HI]; auto; [lia|].
  rewrite HL in Ht. destruct (HI t) as [H1 _]; [lia|]. rewrite E in H1. rewrite H1. apply Nat2Z.id.
Qed.

Lemma ssq_blk_sub : forall x q p, In (x, q) ssq_cells -> In p (ssq_blk (x, q)) -> In p (sz_blk x).
Proof.
  intros [c sz] q p _ H. unfold ssq_blk, sz_blk in *. simpl in *.
  rewrite <- ssq_row. eapply in_concat_nth; eauto.
Qed.

Lemma ssqcells_ok : cells_ok ssq_cells (fun x => [Z.of_nat (fst (fst x)); snd (fst x); snd x]) ssq_blk
                     (length (si_i si)).
Proof.
  pose proof szcells_ok as CO. constructor.
  - unfold ssq_cells. apply NoDup_flat_map.
    + apply sz_cells_nodup.
    + intros. apply FinFun.Injective_map_NoDup; [|apply range2_nodup]. intros a b E. now injection E.
    + intros x y b _ _ H1 H2. apply in_map_iff in H1, H2.
      destruct H1 as (? & E1 & _). destruct H2 as (? & E2 & _). congruence.
  - intros [[c sz] q] [[c' sz'] q'] _ _ E. simpl in E. injection E as E1 E2 E3.
    repeat f_equal; auto. lia.
  - intros [[c sz] q] H. apply ssq_cells_in in H. destruct H as [Hx Hq]. simpl in Hq.
    pose proof (co_blk _ _ _ _ CO _ Hx) as ND. unfold sz_blk in ND. simpl in ND.
    rewrite <- ssq_row in ND. unfold ssq_blk. simpl.
    set (row := nth _ (nth c ssql []) []) in *.
    set (t := Z.to_nat _).
    destruct (Nat.lt_ge_cases t (length row)).
    + revert ND. rewrite (concat_firstn_app _ row t), (skipn_nth _ [] row t) by auto.
      simpl. intros ND. apply NoDup_app_inv in ND. destruct ND as (_ & ND & _).
      apply NoDup_app_inv in ND. tauto.
    + rewrite nth_overflow by auto. constructor.
  - intros [x q] [y q'] k Hx Hy H1 H2.
    assert (E : x = y).
    { pose proof (ssq_blk_sub _ _ _ Hx H1). pose proof (ssq_blk_sub _ _ _ Hy H2).
      apply ssq_cells_in in Hx, Hy. eapply (co_disj _ _ _ _ CO); eauto; tauto. }
    subst y. f_equal. destruct x as [c sz].
    apply ssq_cells_in in Hx, Hy. destruct Hx as [Hx Hq]. destruct Hy as [_ Hq']. simpl in *.
    pose proof (co_blk _ _ _ _ CO _ Hx) as ND. unfold sz_blk in ND. simpl in ND.
    rewrite <- ssq_row in ND. unfold ssq_blk in H1, H2. simpl in H1, H2.
    apply sz_cells_in in Hx. destruct Hx as [Hc Hs]. rewrite Hnc in Hc. fold n in Hc.
    apply In_nth with (d := 0%Z) in Hs. destruct Hs as (kk & Hkk & Es). subst sz.
    destruct (ssq_pos c kk q) as (t & Ht & E1 & E2); auto; [lia|].
    destruct (ssq_pos c kk q') as (t' & Ht' & E1' & E2'); auto; [lia|].
    rewrite E1 in H1. rewrite E1' in H2.
    assert (t = t') by (eapply NoDup_concat_disjoint; eauto). subst t'. congruence.
  - intros k. rewrite <- (co_cover _ _ _ _ CO). split.
    + intros ([x q] & H & H1). exists x. split; [apply ssq_cells_in in H; tauto|].
      eapply ssq_blk_sub; eauto.
    + intros ([c sz] & Hx & H). pose proof Hx as Hx'.
      apply sz_cells_in in Hx. destruct Hx as [Hc Hs]. rewrite Hnc in Hc. fold n in Hc.
      apply In_nth with (d := 0%Z) in Hs. destruct Hs as (kk & Hkk & Es). subst sz.
      unfold sz_blk in H. simpl in H. rewrite szrange_pos in H by (auto; lia). rewrite <- ssq_row in H.
      apply in_concat in H. destruct H as (b & Hb & Hp).
      apply In_nth with (d := []) in Hb. destruct Hb as (t & Ht & Et).
      rewrite SHAPE in Ht by (auto; lia).
      exists (c, nth kk (szrange c n) 0%Z, nth t (ssqrange c (nth kk (szrange c n) 0%Z) n) 0%Z). split.
      * apply ssq_cells_in. split; auto. simpl. now apply nth_In.
      * unfold ssq_blk. simpl. rewrite szrange_pos by (auto; lia).
        rewrite szrange_len in Hkk by lia.
        destruct (ssqrange_facts n c kk) as [HL HI]; [lia|lia|].
        rewrite HL in Ht. destruct (HI t) as [H1 _]; [lia|]. rewrite H1, Nat2Z.id. now rewrite Et.
Qed.
End SzCells.

(** ** The property *)

(** What the entries mean: the first component is the charge of the state's occupation list, the
    second (for 'sz' and 'ssq') its spin projection. *)
Definition qn_meaning (si : SI) : Prop :=
  forall q k, qn_ind si q = Some k ->
    exists s, get_state si k = Some s /\
      nth 0 q 0%Z = Z.of_nat (charge_of s) /\
      ((si_indexing si = IxSz \/ si_indexing si = IxSsq) -> nth 1 q 0%Z = sz_of (si_nsingle si) s).

Lemma get_state_occ : forall si k, k < length (si_i si) ->
  get_state si k = Some (occ (si_nsingle si) (nth k (si_i si) 0)).
Proof. intros. unfold get_state. rewrite nth_error_of_nth with (d := 0) by auto. reflexivity. Qed.

Lemma qn_charge : forall si live, si_ok si live -> si_ncharge si = si_nsingle si + 1 ->
  (si_indexing si = IxLin \/ si_indexing si = IxCharge) ->
  inverse_on (qn_ind si) (ind_qn si) (length (si_i si)) /\ qn_meaning si.
Proof.
  intros si live OK Hn Hix.
  pose proof (cells_inverse _ _ _ _ _ (charge_cells si live OK Hn)) as [H1 H2].
  assert (E : flat_map (fun x => block_pairs [Z.of_nat x] (nth x (si_chargelst si) []))
                (seq 0 (si_ncharge si)) = qn_pairs si).
  { unfold qn_pairs. destruct Hix as [-> | ->]; reflexivity. }
  rewrite E in H1, H2. split; [exact H1|].
  intros q k H. apply H2 in H. destruct H as (x & a & Hx & Ha & -> & ->).
  apply in_seq in Hx. rewrite Hn in Hx.
  pose proof (nth_In (nth x (si_chargelst si) []) 0 Ha) as Hin.
  apply (ok_cl_in _ _ OK) in Hin; [|lia]. destruct Hin as [Hk Hc].
  exists (occ (si_nsingle si) (nth (nth a (nth x (si_chargelst si) []) 0) (si_i si) 0)). split; [apply get_state_occ; auto|].
  split.
  - simpl. f_equal. auto.
  - intros [E'|E']; destruct Hix; congruence.
Qed.

Lemma qn_sz : forall si live, si_ok si live -> si_ncharge si = si_nsingle si + 1 ->
  Nat.even (si_nsingle si) = true -> sz_ok si -> si_indexing si = IxSz ->
  inverse_on (qn_ind si) (ind_qn si) (length (si_i si)) /\ qn_meaning si.
Proof.
  intros si live OK Hn He SZ Hix.
  pose proof (cells_inverse _ _ _ _ _ (szcells_ok si live OK Hn He SZ)) as [H1 H2].
  assert (E : flat_map (fun x => block_pairs [Z.of_nat (fst x); snd x] (sz_blk si x))
                (sz_cells (si_nsingle si) (si_ncharge si)) = qn_pairs si).
  { unfold qn_pairs. rewrite Hix. unfold sz_cells. rewrite flat_map_flat_map.
    apply flat_map_ext. intros c. rewrite flat_map_map. reflexivity. }
  rewrite E in H1, H2. split; [exact H1|].
  intros q k H. apply H2 in H. destruct H as ([c sz] & a & Hx & Ha & -> & ->).
  apply sz_cells_in in Hx. rewrite Hn in Hx.
  pose proof (nth_In (sz_blk si (c, sz)) 0 Ha) as Hin.
  apply sz_blk_in in Hin; auto; [|lia|tauto]. destruct Hin as (Hk & Hc & Hs).
  eexists. split; [apply get_state_occ; auto|]. split.
  - simpl. f_equal. auto.
  - intros _. simpl. auto.
Qed.

Lemma qn_ssq : forall n name, 1 <= n -> ix_of name n = IxSsq ->
  let si := si_init n name in
  inverse_on (qn_ind si) (ind_qn si) (length (si_i si)) /\ qn_meaning si.
Proof.
  intros n name Hn1 Hix si.
  pose proof (si_init_ok n name) as OK. fold si in OK.
  assert (He : Nat.even n = true) by (eapply ix_of_even; eauto).
  assert (SZ : sz_ok si) by (apply si_init_sz_ok; auto).
  assert (En : si_nsingle si = n) by apply init_n.
  assert (Hnc : si_ncharge si = si_nsingle si + 1) by (unfold si, si_init; rewrite Hix; reflexivity).
  assert (Esz : si_szlst si = Some (enum_szlst (construct_szlst n))).
  { unfold si, si_init. rewrite Hix. reflexivity. }
  assert (Essq : si_ssqlst si = Some (construct_ssqlst (enum_szlst (construct_szlst n)) n)).
  { unfold si, si_init. rewrite Hix. reflexivity. }
  assert (Eix : si_indexing si = IxSsq) by (unfold si; rewrite init_ix; auto).
  pose proof (ssqcells_ok si all_live OK Hnc) as CO. rewrite En in CO.
  specialize (CO He SZ). rewrite Esz, Essq in CO.
  specialize (CO (ssqlst_refines_szlst n He Hn1)).
  assert (SH : forall c k, c <= n -> k < length (szrange c n) ->
     length (nth k (nth c (construct_ssqlst (enum_szlst (construct_szlst n)) n) []) [])
     = length (ssqrange c (nth k (szrange c n) 0%Z) n)).
  { intros c k Hc Hk. rewrite construct_ssqlst_enum by auto.
    rewrite szrange_len in Hk by auto.
    destruct (enum_tabs_nth (ssq_counts n) 0 c) as (s & E1).
    { unfold ssq_counts. rewrite map_length, seq_length. lia. }
    rewrite E1. unfold ssq_counts. rewrite nth_map_seq by lia.
    destruct (enum_rows_nth (map (fun k => cell_counts n c k) (seq 0 (S (smax n c)))) s k) as (s' & E2).
    { rewrite map_length, seq_length. lia. }
    rewrite E2, nth_map_seq, enum_counts_length by lia.
    destruct (ssqrange_facts n c k) as [HL _]; [auto|lia|]. rewrite HL.
    unfold cell_counts. now rewrite map_length, seq_length. }
  specialize (CO SH). pose proof (cells_inverse _ _ _ _ _ CO) as [H1 H2].
  assert (E : flat_map (fun x => block_pairs [Z.of_nat (fst (fst x)); snd (fst x); snd x] (ssq_blk si x))
                (ssq_cells si) = qn_pairs si).
  { unfold qn_pairs. rewrite Eix. unfold ssq_cells, sz_cells. rewrite !flat_map_flat_map.
    apply flat_map_ext. intros c. rewrite flat_map_map.
    apply flat_map_ext. intros sz. rewrite flat_map_map. reflexivity. }
  rewrite E in H1, H2. split; [exact H1|].
  intros q k H. apply H2 in H. destruct H as ([[c sz] qq] & a & Hx & Ha & -> & ->).
  pose proof (nth_In (ssq_blk si (c, sz, qq)) 0 Ha) as Hin.
  pose proof Hx as Hx'. eapply ssq_blk_sub in Hin; eauto; [|rewrite Esz, Essq; apply ssqlst_refines_szlst; auto].
  apply ssq_cells_in in Hx. destruct Hx as [Hx _].
  apply sz_cells_in in Hx. rewrite Hnc in Hx.
  apply sz_blk_in in Hin; auto; [|lia|tauto]. destruct Hin as (Hk & Hc & Hs).
  eexists. split; [apply get_state_occ; auto|]. split.
  - simpl. f_equal. auto.
  - intros _. simpl. auto.
Qed.

(** Construction. *)
Theorem qn_init : forall n name, 1 <= n ->
  let si := si_init n name in
  inverse_on (qn_ind si) (ind_qn si) (2 ^ n) /\ qn_meaning si.
Proof.
  intros n name Hn si.
  pose proof (si_init_ok n name) as OK. fold si in OK.
  assert (Hm : length (si_i si) = 2 ^ n).
  { rewrite <- (ok_nmany _ _ OK). unfold si, si_init. destruct (ix_of name n); reflexivity. }
  rewrite <- Hm.
  assert (En : si_nsingle si = n) by apply init_n.
  assert (Hnc : si_ncharge si = si_nsingle si + 1) by (unfold si, si_init; destruct (ix_of name n); reflexivity).
  destruct (ix_of name n) eqn:Hix.
  - apply (qn_charge si all_live); auto. left. unfold si. now rewrite init_ix.
  - apply (qn_charge si all_live); auto. right. unfold si. now rewrite init_ix.
  - apply (qn_sz si all_live); auto.
    + rewrite En. eapply ix_of_even; eauto.
    + apply si_init_sz_ok; auto.
    + unfold si. now rewrite init_ix.
  - apply qn_ssq; auto.
Qed.

(** After any history of removals ('charge', 'sz'); the dictionaries are rebuilt by every call
    (indexing.py 664). *)
Theorem qn_history : forall n name ops,
  (ix_of name n = IxCharge \/ ix_of name n = IxSz) ->
  (forall k, In k (concat ops) -> k < 2 ^ n) ->
  exists si, remove_many (si_init n name) ops = Some si /\
    inverse_on (qn_ind si) (ind_qn si) (si_nmany si) /\ qn_meaning si.
Proof.
  intros n name ops Hix Hk.
  destruct (hist_many ops (si_init n name) all_live) as (si & E & H1 & H2 & H3).
  - apply init_hist; auto.
  - rewrite init_n. auto.
  - exists si. split; auto.
    rewrite (ok_nmany _ _ (hi_ok _ _ H1)).
    rewrite init_ix in H3. pose proof (hi_ix _ _ H1) as HX. rewrite H3 in HX.
    destruct Hix as [Hix|Hix]; rewrite Hix in *.
    + apply (qn_charge si _ (hi_ok _ _ H1)); auto. apply (hi_ncharge _ _ H1).
    + apply (qn_sz si _ (hi_ok _ _ H1)); auto; try tauto. apply (hi_ncharge _ _ H1).
Qed.

Example qn_ex_sz : qn_ind (si_init 4 "sz") [2; 0; 3]%Z = Some 9 /\ ind_qn (si_init 4 "sz") 9 = Some [2; 0; 3]%Z.
Proof. vm_compute. auto. Qed.
Example qn_ex_ssq : ind_qn (si_init 4 "ssq") 9 = Some [2; 0; 2; 0]%Z.
Proof. vm_compute. auto. Qed.
