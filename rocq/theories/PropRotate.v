(** Property C21: rotating block by block is the similarity transformation P^dagger T P. *)
From Coq Require Import String List Arith Lia ZArith Bool Permutation Ring.
From Verif Require Import Base Bits Indexing IndexingProofs RemoveProofs Binom SsqProofs Qn PropIndexing CRing Fock Operators OperatorsProofs PropOperators Layout Rates EnergiesProofs Rotate RotateProofs.
Import ListNotations.
Open Scope nat_scope.
Local Notation length := List.length.

(** ** Charge blocks are contiguous *)
Definition contiguous (L : list (list nat)) : Prop := exists (M : list (list nat)), L = enum_from 0 M.

Lemma remove_contiguous : forall si lin si', contiguous (si_chargelst si) \/ si_indexing si <> IxSsq ->
  remove_fock_states si lin = Some si' -> contiguous (si_chargelst si').
Proof.
  intros si lin si' H E. unfold remove_fock_states in E.
  destruct (si_indexing si) eqn:Ei; try (injection E as <-; destruct H; [auto|easy]).
  - destruct (forallb _ _); [|discriminate].
    destruct (keep_blocks _ _ _) as [clin j1]. injection E as <-. cbn. now exists clin.
  - destruct (forallb _ _); [|discriminate].
    destruct (keep_blocks _ _ _) as [clin j1]. injection E as <-. cbn. now exists clin.
  - destruct (forallb _ _); [|discriminate].
    destruct (keep_blocks _ _ _) as [clin j1]. destruct (si_szlst_lin si); [|discriminate].
    destruct (keep_blocks2 _ _ _) as [szlin j2]. injection E as <-. cbn. now exists clin.
Qed.

Lemma many_contiguous : forall ops si si', contiguous (si_chargelst si) ->
  remove_many si ops = Some si' -> contiguous (si_chargelst si').
Proof.
  induction ops as [|lin ops IH]; simpl; intros si si' H E.
  - congruence.
  - destruct (remove_fock_states si lin) as [s1|] eqn:E1; [|discriminate].
    eapply IH; [|exact E]. eapply remove_contiguous; eauto.
Qed.

Lemma indexed_contiguous : forall n name si, ix_of name n <> IxLin -> indexed n name si -> contiguous (si_chargelst si).
Proof.
  intros n name si H (ops & _ & _ & E). eapply many_contiguous; [|exact E].
  unfold si_init. destruct (ix_of name n); try easy; cbn; now eexists.
Qed.

(** ** Spin blocks *)
Lemma szrange_in : forall n c sz, c <= n ->
  (In sz (szrange c n) <-> exists k, k <= smax n c /\ sz = (2 * Z.of_nat k - Z.of_nat (smax n c))%Z).
Proof.
  intros n c sz Hc. split.
  - intros H. apply In_nth with (d := 0%Z) in H. destruct H as (k & Hk & E). exists k.
    unfold szrange in E. rewrite range2_nth in E by exact Hk. rewrite szrange_len in Hk by auto.
    rewrite smax_szmax in E by auto. split; lia.
  - intros (k & Hk & ->).
    assert (L : k < length (szrange c n)) by (rewrite szrange_len by auto; lia).
    replace (2 * Z.of_nat k - Z.of_nat (smax n c))%Z with (nth k (szrange c n) 0%Z); [now apply nth_In|].
    unfold szrange in *. rewrite range2_nth by exact L. rewrite smax_szmax by auto. lia.
Qed.

Lemma szrange_map : forall n c, c <= n ->
  szrange c n = map (fun k => (2 * Z.of_nat k - Z.of_nat (smax n c))%Z) (seq 0 (S (smax n c))).
Proof.
  intros n c Hc. pose proof (szrange_len n c Hc) as L. unfold szrange, range2 in *. rewrite map_length, seq_length in L.
  rewrite L. apply map_ext. intros k. rewrite smax_szmax by auto. lia.
Qed.

Lemma removelast_seq : forall k s, removelast (seq s (S k)) = seq s k.
Proof.
  induction k; intros s; auto. change (seq s (S (S k))) with (s :: seq (S s) (S k)).
  change (removelast (s :: seq (S s) (S k))) with (s :: removelast (seq (S s) (S k))). rewrite IHk. reflexivity.
Qed.
Lemma removelast_map : forall A B (f : A -> B) l, removelast (map f l) = map f (removelast l).
Proof. induction l as [|a [|b l] IH]; auto. cbn [map] in *. cbn [removelast] in *. now rewrite IH. Qed.

Definition step_of (up : bool) : Z := if up then 1%Z else (-1)%Z.

Lemma sz_pairs_in : forall si up x y, si_ncharge si = si_nsingle si + 1 -> Nat.even (si_nsingle si) = true ->
  (In (x, y) (sz_pairs si up) <->
   In x (sz_cells (si_nsingle si) (si_ncharge si)) /\ In y (sz_cells (si_nsingle si) (si_ncharge si)) /\
   fst y = S (fst x) /\ snd y = (snd x + step_of up)%Z).
Proof.
  intros si up [c sz] [c' sz'] Hnc He. set (n := si_nsingle si) in *. rewrite Hnc.
  unfold sz_pairs. fold n. rewrite Hnc, in_flat_map. rewrite !sz_cells_in. cbn [fst snd].
  apply Nat.even_spec in He. destruct He as [h Eh].
  assert (EH : (n + 1) / 2 = h) by (rewrite Eh; symmetry; apply Nat.div_unique with (r := 1); lia).
  assert (KEY : forall c, c < n ->
    let rng := szrange c n in
    forall sz, In sz (if (n + 1) / 2 <=? c then (if up then removelast rng else tl rng) else rng) <->
      In sz rng /\ In (sz + step_of up)%Z (szrange (S c) n)).
  { clear c sz c' sz'. intros c Hc rng sz. unfold rng. rewrite !szrange_in by lia. rewrite EH.
    destruct (Nat.leb_spec h c).
    - destruct up; unfold step_of.
      + rewrite szrange_map, removelast_map, removelast_seq by lia. rewrite in_map_iff. split.
        * intros (k & <- & Hk). apply in_seq in Hk. unfold smax in *. split; exists k; lia.
        * intros [(k & Hk & ->) (k' & Hk' & E)]. exists k. split; auto. apply in_seq. unfold smax in *. lia.
      + rewrite szrange_map by lia. cbn [seq map tl]. rewrite in_map_iff. split.
        * intros (k & <- & Hk). apply in_seq in Hk. unfold smax in *.
          split; [exists k; lia|exists (k - 1); lia].
        * intros [(k & Hk & ->) (k' & Hk' & E)]. exists k. split; auto. apply in_seq. unfold smax in *. lia.
    - rewrite szrange_in by lia. split; [|tauto]. intros (k & Hk & ->). split; [eauto|].
      destruct up; unfold step_of, smax in *; [exists (S k)|exists k]; lia. }
  split.
  - intros (d & Hd & H). apply in_seq in Hd. apply in_map_iff in H. destruct H as (z & E & H).
    injection E as <- <- <- <-. apply KEY in H; [|lia]. unfold step_of in *. destruct up; repeat split; try tauto; lia.
  - intros ((Hc & Hz) & (Hc' & Hz') & -> & ->). exists c. split; [apply in_seq; lia|].
    apply in_map_iff. exists sz. split; [reflexivity|]. apply KEY; [lia|]. auto.
Qed.

Lemma blk_sz_some : forall si, sz_ok si -> forall x,
  In x (sz_cells (si_nsingle si) (si_nsingle si + 1)) -> blk_sz si x = Some (sz_blk si x).
Proof.
  intros si (L & EL & HL & H) [c sz] Hx. apply sz_cells_in in Hx. destruct Hx as [Hc Hz].
  destruct (H c) as [HL2 H2]; [lia|].
  unfold blk_sz, sz_blk, szl. cbn [fst snd]. rewrite EL. rewrite (nth_error_of_nth _ []) by lia.
  apply In_nth with (d := 0%Z) in Hz. destruct Hz as (k & Hk & <-).
  rewrite sz_to_ind_szrange by (auto; lia). rewrite py_nth_nat, Nat2Z.id.
  rewrite (nth_error_of_nth _ []) by lia. auto.
Qed.

Lemma sz_contiguous : forall si, sz_ok si -> forall x,
  In x (sz_cells (si_nsingle si) (si_nsingle si + 1)) -> exists s, sz_blk si x = seq s (length (sz_blk si x)).
Proof.
  intros si (L & EL & HL & H) [c sz] Hx. apply sz_cells_in in Hx. destruct Hx as [Hc Hz].
  destruct (H c) as [HL2 H2]; [lia|]. apply In_nth with (d := 0%Z) in Hz. destruct Hz as (k & Hk & <-).
  destruct (H2 k Hk) as [(s & len & E) _]. exists s. unfold sz_blk. cbn [fst snd]. rewrite EL.
  rewrite szrange_pos by (auto; lia). rewrite E. now rewrite seq_length.
Qed.

(** ** Columns glued together *)
Lemma concat_pos : forall (rows : list (list nat)) t b, t < length rows -> b < length (nth t rows []) ->
  let o := total (firstn t rows) in
  o + b < length (concat rows) /\ nth (o + b) (concat rows) 0 = nth b (nth t rows []) 0.
Proof.
  induction rows as [|r rows IH]; intros t b Ht Hb o; [simpl in Ht; lia|].
  destruct t as [|t]; simpl in *.
  - rewrite app_length. split; [lia|]. now rewrite app_nth1.
  - destruct (IH t b) as [H1 H2]; [lia|auto|]. unfold o. rewrite app_length. split; [lia|].
    rewrite app_nth2 by lia. rewrite <- H2. f_equal. lia.
Qed.
Lemma concat_pos_inv : forall (rows : list (list nat)) y, y < length (concat rows) ->
  exists t b, t < length rows /\ b < length (nth t rows []) /\ y = total (firstn t rows) + b.
Proof.
  induction rows as [|r rows IH]; intros y Hy; [simpl in Hy; lia|].
  simpl in Hy. rewrite app_length in Hy. destruct (Nat.lt_ge_cases y (length r)).
  - exists 0, y. simpl. split; [|split]; lia.
  - destruct (IH (y - length r)) as (t & b & H1 & H2 & H3); [lia|].
    exists (S t), b. simpl. split; [|split]; auto; lia.
Qed.
Lemma hcat_pos : forall K (rows : list (list nat)) (vs : list (nat * mat K)) t b x,
  map fst vs = map (@List.length nat) rows -> t < length rows -> b < length (nth t rows []) ->
  hcat K vs x (total (firstn t rows) + b) = snd (nth t vs (0, mzeros K)) x b.
Proof.
  intros K. induction rows as [|r rows IH]; intros vs t b x E Ht Hb; [simpl in Ht; lia|].
  destruct vs as [|[w m] vs]; [discriminate|]. injection E as Ew E. subst w. destruct t as [|t]; simpl in *.
  - destruct (Nat.ltb_spec b (length r)); [auto|lia].
  - destruct (Nat.ltb_spec (length r + total (firstn t rows) + b) (length r)); [lia|].
    rewrite <- (IH vs t b x E) by (auto; lia). f_equal. lia.
Qed.

Section Rotate.
Variable K : CRing.
Local Notation C := (Cx K).
Local Open Scope rng_scope.
Add Ring CrotProp : (rth C).
Local Notation mat := (mat K).

(** ** What is assumed and what is asked *)
(** [T] only connects Fock states in relation [R]; [m] is the number of states *)
Definition connects (si : SI) (R : list bool -> list bool -> Prop) (T : mat) : Prop :=
  forall i j s s', get_state si i = Some s -> get_state si j = Some s' -> ~ R s s' -> T i j = 0.
Definition neighbours (s s' : list bool) : Prop :=
  (electrons s' = S (electrons s) \/ electrons s = S (electrons s'))%nat.
(** one electron of the given spin more *)
Definition added (up : bool) (s s' : list bool) : Prop :=
  electrons s' = S (electrons s) /\ up_minus_down s' = (up_minus_down s + (if up then 1 else -1))%Z.
Definition spin_neighbours (up : bool) (s s' : list bool) : Prop := added up s s' \/ added up s' s.
Definition hermitian (m : nat) (T : mat) : Prop :=
  forall i j, (i < m)%nat -> (j < m)%nat -> T i j = conj (T j i).
Definition same (m : nat) (A B : mat) : Prop := forall i j, (i < m)%nat -> (j < m)%nat -> A i j = B i j.

(** the blocks of states with their eigenvectors *)
Definition blocks_of (si : SI) (v : Vecs K) : list (list nat * mat) :=
  match v with
  | VeCharge _ v => map (fun c => (nth c (si_chargelst si) [], v c)) (seq 0 (si_ncharge si))
  | VeSz _ v => map (fun x => (sz_blk si x, vec_sz K si v x)) (sz_cells (si_nsingle si) (si_ncharge si))
  | VeSsq _ v => map (fun x => (sz_blk si x, vec_ssq K si v x)) (sz_cells (si_nsingle si) (si_ncharge si))
  end.
(** the arguments have the shape the indexing asks for *)
Definition shaped (si : SI) (v : Vecs K) : Prop :=
  match si_indexing si, v with
  | IxLin, VeCharge _ _ | IxCharge, VeCharge _ _ | IxSz, VeSz _ _ => True
  | IxSsq, VeSsq _ v => forall c sz, (c <= si_nsingle si)%nat -> In sz (szrange c (si_nsingle si)) ->
      map fst (v c (szi si c sz)) = map (@List.length nat) (nth (szi si c sz) (nth c (ssql si) []) [])
  | _, _ => False
  end.

Inductive family (si : SI) (v : Vecs K) : Prop :=
| Fam : forall X (xeq : forall a b : X, {a = b} + {a <> b}) cells pre blk V P (key : X -> nat),
    cells_ok cells pre blk (si_nmany si) -> full_pmtr K si v = Some P -> is_pmtr K X xeq cells blk V P ->
    (forall x, In x cells -> In (blk x, V x) (blocks_of si v)) ->
    (forall x i, In x cells -> In i (blk x) -> exists s, get_state si i = Some s /\ electrons s = key x) ->
    family si v.

Lemma in_pm_block : forall rows cols (w : mat) u, In u (pm_block K rows cols w) <->
  exists a b, (a < length rows)%nat /\ (b < length cols)%nat /\ u = ((nth a rows 0%nat, nth b cols 0%nat), w a b).
Proof.
  intros. unfold pm_block. rewrite in_map_iff. split.
  - intros ([a b] & <- & H). apply in_prod_iff in H. destruct H as [Ha Hb]. apply in_seq in Ha, Hb.
    exists a, b. cbn. repeat split; auto; lia.
  - intros (a & b & Ha & Hb & ->). exists (a, b). split; auto. apply in_prod_iff. rewrite !in_seq. lia.
Qed.

Definition eqcz : forall a b : nat * Z, {a = b} + {a <> b}.
Proof. decide equality; [apply Z.eq_dec|apply Nat.eq_dec]. Defined.

(** *** the three families *)
Section Families.
Variables (n : nat) (name : string) (si : SI).
Hypothesis Hn : (1 <= n)%nat.
Hypothesis HI : indexed n name si.

Lemma state_of : forall i, (i < si_nmany si)%nat -> exists s, get_state si i = Some s /\ length s = n.
Proof.
  intros i Hi. destruct (indexed_facts _ _ _ Hn HI) as (En & _ & _ & live & OK & _).
  rewrite (ok_nmany _ _ OK) in Hi. rewrite get_state_occ by auto. eexists. split; [reflexivity|].
  rewrite En. apply occ_length; auto. rewrite <- En. apply (ok_i_in _ _ OK). now apply nth_In.
Qed.

Lemma charge_family : forall v, (ix_of name n = IxLin \/ ix_of name n = IxCharge) ->
  let cells := seq 0 (si_ncharge si) in
  let blk := fun c => nth c (si_chargelst si) [] in
  cells_ok cells (fun c => [Z.of_nat c]) blk (si_nmany si) /\
  (exists P, full_pmtr K si (VeCharge K v) = Some P /\ is_pmtr K nat Nat.eq_dec cells blk v P) /\
  (forall x i, In x cells -> In i (blk x) <-> exists s, get_state si i = Some s /\ electrons s = x).
Proof.
  intros v Hix cells blk. destruct (indexed_facts _ _ _ Hn HI) as (En & Enc & Eix & live & OK & _).
  pose proof (charge_cells si live OK ltac:(congruence)) as CO. rewrite <- (ok_nmany _ _ OK) in CO.
  split; [exact CO|]. split.
  - unfold full_pmtr, pm_writes.
    set (ws := flat_map (fun charge => let b := nth charge (si_chargelst si) [] in pm_block K b b (v charge)) (seq 0 (si_ncharge si))).
    exists (fun i j => run_writes eq2 ws (fun _ => 0) (i, j)).
    split. { rewrite Eix. destruct Hix as [E|E]; rewrite E; reflexivity. }
    eapply pmtr_of_writes; [exact CO| |].
    + intros u Hu. unfold ws in Hu. apply in_flat_map in Hu. destruct Hu as (c & Hc & Hu). cbv zeta in Hu.
      apply in_pm_block in Hu. destruct Hu as (a & b & Ha & Hb & ->). exists c, a, b. auto.
    + intros c a b Hc Ha Hb. exists (v c a b). unfold ws. apply in_flat_map. exists c. split; auto.
      apply in_pm_block. exists a, b. auto.
  - intros c i Hc. apply in_seq in Hc. unfold blk. rewrite (ok_charge_block _ _ _ _ OK) by lia.
    split; intros (s & A & B); exists s; rewrite ?electrons_charge in *; auto.
Qed.

Lemma sz_family_blocks : (ix_of name n = IxSz \/ ix_of name n = IxSsq) ->
  let cells := sz_cells (si_nsingle si) (si_ncharge si) in
  cells_ok cells (fun x => [Z.of_nat (fst x); snd x]) (sz_blk si) (si_nmany si) /\
  (forall x i, In x cells -> In i (sz_blk si x) <->
     exists s, get_state si i = Some s /\ electrons s = fst x /\ up_minus_down s = snd x) /\
  Nat.even n = true /\ sz_ok si.
Proof.
  intros Hix cells. destruct (indexed_facts _ _ _ Hn HI) as (En & Enc & Eix & live & OK & SZ & _).
  specialize (SZ Hix).
  assert (He : Nat.even n = true) by (eapply ix_of_even; eauto).
  pose proof (szcells_ok si live OK ltac:(congruence) ltac:(congruence) SZ) as CO. rewrite <- (ok_nmany _ _ OK) in CO.
  split; [exact CO|]. split; [|auto].
  intros [c sz] i Hx. apply sz_cells_in in Hx. destruct Hx as [Hc Hz]. cbn [fst snd].
  rewrite sz_blk_in by (auto; lia). rewrite En. split.
  - intros (Hi & A & B). assert (Hb : (nth i (si_i si) 0 < 2 ^ n)%nat)
      by (rewrite <- En; apply (ok_i_in _ _ OK); apply nth_In; auto).
    exists (occ n (nth i (si_i si) 0%nat)). split; [rewrite get_state_occ by auto; now rewrite En|].
    split; [now rewrite electrons_charge|]. rewrite (umd_sz n) by (apply occ_length; auto). exact B.
  - intros (s & A & B & D). unfold get_state in A.
    destruct (nth_error (si_i si) i) as [k|] eqn:Ek; [|discriminate]. cbn in A. injection A as A.
    pose proof (nth_of_nth_error (si_i si) i 0%nat Ek) as E'.
    assert (Hp : (i < length (si_i si))%nat) by (apply nth_error_Some; congruence).
    assert (Hb : (nth i (si_i si) 0 < 2 ^ n)%nat) by (rewrite <- En; apply (ok_i_in _ _ OK); apply nth_In; auto).
    rewrite E' in *. rewrite En in A. split; auto. unfold occ_charge, occ_sz, occ. rewrite A.
    rewrite electrons_charge in B. split; auto. rewrite <- umd_sz; auto. rewrite <- A. apply occ_length; auto.
Qed.

Lemma sz_family : forall v, ix_of name n = IxSz ->
  exists P, full_pmtr K si (VeSz K v) = Some P /\
    is_pmtr K (nat * Z) eqcz (sz_cells (si_nsingle si) (si_ncharge si)) (sz_blk si) (vec_sz K si v) P.
Proof.
  intros v Hix. destruct (indexed_facts _ _ _ Hn HI) as (En & Enc & Eix & live & OK & _).
  destruct (sz_family_blocks (or_introl Hix)) as (CO & _).
  unfold full_pmtr, pm_writes. rewrite Eix, Hix. eexists. split; [reflexivity|].
  eapply pmtr_of_writes; [exact CO| |].
  - intros u Hu. apply in_flat_map in Hu. destruct Hu as (c & Hc & Hu). apply in_flat_map in Hu.
    destruct Hu as (sz & Hz & Hu). cbv zeta in Hu. apply in_pm_block in Hu. destruct Hu as (a & b & Ha & Hb & ->).
    apply in_seq in Hc. exists (c, sz), a, b. split; [apply sz_cells_in; split; [lia|auto]|]. auto.
  - intros [c sz] a b Hx Ha Hb. apply sz_cells_in in Hx. destruct Hx as [Hc Hz].
    eexists. apply in_flat_map. exists c. split; [apply in_seq; lia|]. apply in_flat_map. exists sz. split; auto.
    cbv zeta. apply in_pm_block. exists a, b. split; [exact Ha|]. split; [exact Hb|]. reflexivity.
Qed.

Lemma ssq_family : forall v, ix_of name n = IxSsq -> shaped si (VeSsq K v) ->
  exists P, full_pmtr K si (VeSsq K v) = Some P /\
    is_pmtr K (nat * Z) eqcz (sz_cells (si_nsingle si) (si_ncharge si)) (sz_blk si) (vec_ssq K si v) P.
Proof.
  intros v Hix SH. destruct (indexed_facts _ _ _ Hn HI) as (En & Enc & Eix & live & OK & _ & EI).
  specialize (EI (or_introl Hix)).
  destruct (sz_family_blocks (or_intror Hix)) as (CO & _ & He & _).
  unfold shaped in SH. rewrite Eix, Hix in SH.
  assert (Esz : szl si = enum_szlst (construct_szlst n)).
  { unfold szl. rewrite EI. unfold si_init. rewrite Hix. reflexivity. }
  assert (Essq : ssql si = construct_ssqlst (enum_szlst (construct_szlst n)) n).
  { unfold ssql. rewrite EI. unfold si_init. rewrite Hix. reflexivity. }
  assert (ROW : forall c k, concat (nth k (nth c (ssql si) []) []) = nth k (nth c (szl si) []) []).
  { intros c k. rewrite Esz, <- (ssqlst_refines_szlst n He Hn), <- Essq.
    rewrite <- (map_nth (@concat nat)), <- (map_nth (map (@concat nat))). reflexivity. }
  assert (SHAPE : forall c k, (c <= n)%nat -> (k < length (szrange c n))%nat ->
     length (nth k (nth c (ssql si) []) []) = length (ssqrange c (nth k (szrange c n) 0%Z) n)).
  { intros c k Hc Hk. rewrite Essq, construct_ssqlst_enum by auto.
    rewrite szrange_len in Hk by auto.
    destruct (enum_tabs_nth (ssq_counts n) 0 c) as (s & E1).
    { unfold ssq_counts. rewrite map_length, seq_length. lia. }
    rewrite E1. unfold ssq_counts. rewrite nth_map_seq by lia.
    destruct (enum_rows_nth (map (fun k => cell_counts n c k) (seq 0 (S (smax n c)))) s k) as (s' & E2).
    { rewrite map_length, seq_length. lia. }
    rewrite E2, nth_map_seq, enum_counts_length by lia.
    destruct (ssqrange_facts n c k) as [HL _]; [auto|lia|]. rewrite HL.
    unfold cell_counts. now rewrite map_length, seq_length. }
  assert (POS : forall c sz, (c <= n)%nat -> In sz (szrange c n) ->
    (forall q, In q (ssqrange c sz n) ->
       (Z.to_nat (ssq_to_ind q sz) < length (nth (szi si c sz) (nth c (ssql si) []) []))%nat) /\
    (forall t, (t < length (nth (szi si c sz) (nth c (ssql si) []) []))%nat ->
       exists q, In q (ssqrange c sz n) /\ Z.to_nat (ssq_to_ind q sz) = t)).
  { intros c sz Hc Hz. apply In_nth with (d := 0%Z) in Hz. destruct Hz as (k & Hk & <-).
    unfold szi. rewrite En, szrange_pos by auto. rewrite SHAPE by auto.
    pose proof Hk as Hk'. rewrite szrange_len in Hk' by auto.
    destruct (ssqrange_facts n c k) as [HL HP]; [auto|lia|]. split.
    - intros q Hq. apply In_nth with (d := 0%Z) in Hq. destruct Hq as (t & Ht & <-).
      destruct (HP t) as [E _]; [lia|]. rewrite E, Nat2Z.id. auto.
    - intros t Ht. exists (nth t (ssqrange c (nth k (szrange c n) 0%Z) n) 0%Z). split; [now apply nth_In|].
      destruct (HP t) as [E _]; [lia|]. rewrite E. apply Nat2Z.id. }
  unfold full_pmtr, pm_writes. rewrite Eix, Hix. eexists. split; [reflexivity|].
  eapply pmtr_of_writes; [exact CO| |].
  - intros u Hu. apply in_flat_map in Hu. destruct Hu as (c & Hc & Hu). apply in_seq in Hc. apply in_flat_map in Hu.
    destruct Hu as (sz & Hz & Hu). apply in_flat_map in Hu. destruct Hu as (q & Hq & Hu). rewrite En in Hz, Hq.
    destruct (POS c sz ltac:(lia) Hz) as [P1 _].
    specialize (P1 q Hq). cbv zeta in Hu. apply in_pm_block in Hu. destruct Hu as (a & b & Ha & Hb & ->).
    set (rows := nth (szi si c sz) (nth c (ssql si) []) []) in *. set (t := Z.to_nat (ssq_to_ind q sz)) in *.
    destruct (concat_pos rows t b P1 Hb) as [Q1 Q2].
    assert (EB : sz_blk si (c, sz) = concat rows).
    { unfold rows. rewrite ROW. unfold sz_blk, szi, szl. reflexivity. }
    exists (c, sz), a, (total (firstn t rows) + b)%nat. split; [apply sz_cells_in; rewrite En; split; [lia|auto]|].
    rewrite EB. split.
    { unfold rows. rewrite ROW. exact Ha. }
    split; auto. rewrite Q2. f_equal.
    + f_equal. unfold rows. now rewrite ROW.
    + unfold vec_ssq. cbn [fst snd]. symmetry. apply hcat_pos; auto. apply SH; [lia|now rewrite En].
  - intros [c sz] a b Hx Ha Hb. apply sz_cells_in in Hx. destruct Hx as [Hc Hz]. rewrite En in Hz.
    set (rows := nth (szi si c sz) (nth c (ssql si) []) []) in *.
    assert (EB : sz_blk si (c, sz) = concat rows).
    { unfold rows. rewrite ROW. unfold sz_blk, szi, szl. reflexivity. }
    pose proof Hb as Hb'. rewrite EB in Hb'. destruct (concat_pos_inv rows b Hb') as (t & b' & T1 & T2 & ->).
    destruct (POS c sz ltac:(lia) Hz) as [_ P2]. destruct (P2 t T1) as (q & Hq & Et).
    eexists. apply in_flat_map. exists c. split; [apply in_seq; lia|]. apply in_flat_map. exists sz.
    split; [now rewrite En|]. apply in_flat_map. exists q. split; [now rewrite En|]. cbv zeta. rewrite Et.
    apply in_pm_block. exists a, b'. split; [exact Ha|]. split; [exact T2|]. f_equal. f_equal.
    rewrite EB. apply (concat_pos rows t b'); auto.
Qed.

Lemma families : forall v, shaped si v -> family si v.
Proof.
  intros v SH. destruct (indexed_facts _ _ _ Hn HI) as (En & Enc & Eix & _).
  pose proof SH as SH'. unfold shaped in SH. rewrite Eix in SH.
  destruct (ix_of name n) eqn:Hix; destruct v as [v|v|v]; try contradiction.
  - destruct (charge_family v (or_introl Hix)) as (CO & (P & EP & HP) & KE).
    eapply (Fam si _ nat Nat.eq_dec _ _ _ v P (fun c => c)); eauto.
    + intros x Hx. cbn. apply in_map_iff. exists x. split; [reflexivity|auto].
    + intros x i Hx Hi. now apply KE.
  - destruct (charge_family v (or_intror Hix)) as (CO & (P & EP & HP) & KE).
    eapply (Fam si _ nat Nat.eq_dec _ _ _ v P (fun c => c)); eauto.
    + intros x Hx. cbn. apply in_map_iff. exists x. split; [reflexivity|auto].
    + intros x i Hx Hi. now apply KE.
  - destruct (sz_family_blocks (or_introl Hix)) as (CO & KE & _). destruct (sz_family v Hix) as (P & EP & HP).
    eapply (Fam si _ (nat * Z) eqcz _ _ _ _ P fst); eauto.
    + intros x Hx. cbn. apply in_map_iff. exists x. split; [reflexivity|auto].
    + intros x i Hx Hi. apply KE in Hi; auto. destruct Hi as (s & A & B & _). eauto.
  - destruct (sz_family_blocks (or_intror Hix)) as (CO & KE & _). destruct (ssq_family v Hix SH') as (P & EP & HP).
    eapply (Fam si _ (nat * Z) eqcz _ _ _ _ P fst); eauto.
    + intros x Hx. cbn. apply in_map_iff. exists x. split; [reflexivity|auto].
    + intros x i Hx Hi. apply KE in Hi; auto. destruct Hi as (s & A & B & _). eauto.
Qed.
End Families.

(** *** block by block = at once *)
Section Blockwise.
Variables (X : Type) (xeq : forall a b : X, {a = b} + {a <> b}).
Variables (cells : list X) (pre : X -> list Z) (blk : X -> list nat) (m : nat) (V : X -> mat) (P : mat).
Variables (strict : bool) (bo : X -> option (list nat)).
Hypothesis CO : cells_ok cells pre blk m.
Hypothesis HP : is_pmtr K X xeq cells blk V P.
Hypothesis CONT : forall x, In x cells -> exists s, blk x = seq s (length (blk x)).
Hypothesis BO : forall x, In x cells -> bo x = Some (blk x).
Hypothesis FULL : strict = true -> forall x, In x cells -> blk x <> [].

Lemma pair_dec : forall (prs : list (X * X)) x y, In (x, y) prs \/ ~ In (x, y) prs.
Proof. intros. destruct (in_dec (fun p q : X * X => ltac:(decide equality)) (x, y) prs); auto. Qed.

Lemma blockwise_pairs : forall prs T0,
  (forall x y, In (x, y) prs -> In x cells /\ In y cells /\ x <> y /\ ~ In (y, x) prs) ->
  exists R, rot_pairs K strict bo V T0 prs = Some R /\ hermitian m R /\
    (forall x a i y b j, place X cells blk x a i -> place X cells blk y b j ->
       ~ In (x, y) prs -> ~ In (y, x) prs -> R i j = 0) /\
    (hermitian m T0 ->
     (forall x y i j, In x cells -> In y cells -> In i (blk x) -> In j (blk y) ->
        ~ In (x, y) prs -> ~ In (y, x) prs -> T0 i j = 0) ->
     same m R (ndot K m (ct K P) (ndot K m T0 P))).
Proof.
  intros prs T0 H.
  destruct (pairs_val K X xeq cells pre blk m CO V CONT strict bo T0 prs (mzeros K)) as (R & E & HV).
  { intros x y Hin. destruct (H x y Hin) as (A & B & D & _). repeat split; auto; unfold others; auto. }
  { intros x y Hin. apply (H x y Hin). }
  exists R. split; [exact E|]. split; [|split].
  - intros i j Hi Hj. destruct (place_ex X cells pre blk m CO i Hi) as (x & a & Hx).
    destruct (place_ex X cells pre blk m CO j Hj) as (y & b & Hy).
    destruct (HV x a i y b j Hx Hy) as (A1 & A2 & A3). destruct (HV y b j x a i Hy Hx) as (B1 & B2 & B3).
    destruct (pair_dec prs x y) as [Q|Q]; [rewrite A1, B2, conj_conj by auto; auto|].
    destruct (pair_dec prs y x) as [Q'|Q']; [rewrite A2, B1 by auto; auto|].
    rewrite A3, B3 by auto. symmetry. apply conj_0.
  - intros x a i y b j Hx Hy N1 N2. destruct (HV x a i y b j Hx Hy) as (A1 & A2 & A3). now rewrite A3.
  - intros HT Z i j Hi Hj. destruct (place_ex X cells pre blk m CO i Hi) as (x & a & Hx).
    destruct (place_ex X cells pre blk m CO j Hj) as (y & b & Hy).
    rewrite (lin_val K X xeq cells pre blk m CO V P T0 x a i y b j HP Hx Hy).
    destruct (HV x a i y b j Hx Hy) as (A1 & A2 & A3).
    destruct (pair_dec prs x y) as [Q|Q]; [auto|].
    destruct (pair_dec prs y x) as [Q'|Q'].
    + rewrite A2 by auto. symmetry. eapply rot_el_herm; eauto; [apply Hx|apply Hy].
    + rewrite A3 by auto. symmetry. apply rot_el_zero. intros a' b' Ha Hb.
      apply (Z x y); auto; try apply Hx; try apply Hy; now apply nth_In.
Qed.

Lemma blockwise_diags : forall T0, 
  exists R, rot_diags K strict bo V T0 cells = Some R /\
    (hermitian m T0 -> hermitian m R) /\
    (forall x a i y b j, place X cells blk x a i -> place X cells blk y b j -> x <> y -> R i j = 0) /\
    ((forall x y i j, In x cells -> In y cells -> In i (blk x) -> In j (blk y) -> x <> y -> T0 i j = 0) ->
     same m R (ndot K m (ct K P) (ndot K m T0 P))).
Proof.
  intros T0.
  destruct (diags_val K X xeq cells pre blk m CO V CONT strict bo T0 cells (mzeros K)) as (R & E & HV).
  { intros x Hx. repeat split; auto; unfold others; auto. }
  exists R. split; [exact E|]. split; [|split].
  - intros HT i j Hi Hj. destruct (place_ex X cells pre blk m CO i Hi) as (x & a & Hx).
    destruct (place_ex X cells pre blk m CO j Hj) as (y & b & Hy).
    destruct (HV x a i y b j Hx Hy) as (A1 & A2). destruct (HV y b j x a i Hy Hx) as (B1 & B2).
    destruct (xeq x y) as [Q|Q].
    + rewrite A1, B1 by (auto; try apply Hx; apply Hy). eapply rot_el_herm; eauto; [apply Hx|apply Hy].
    + rewrite A2, B2 by (intros [? ?]; congruence). symmetry. apply conj_0.
  - intros x a i y b j Hx Hy N. destruct (HV x a i y b j Hx Hy) as (A1 & A2). rewrite A2; auto. now intros [? ?].
  - intros Z i j Hi Hj. destruct (place_ex X cells pre blk m CO i Hi) as (x & a & Hx).
    destruct (place_ex X cells pre blk m CO j Hj) as (y & b & Hy).
    rewrite (lin_val K X xeq cells pre blk m CO V P T0 x a i y b j HP Hx Hy).
    destruct (HV x a i y b j Hx Hy) as (A1 & A2). destruct (xeq x y) as [Q|Q].
    + apply A1; auto. apply Hx.
    + rewrite A2 by (now intros [? ?]). symmetry. apply rot_el_zero. intros a' b' Ha Hb.
      apply (Z x y); auto; try apply Hx; try apply Hy; now apply nth_In.
Qed.
End Blockwise.

Lemma charge_pairs_in : forall si x y, si_ncharge si = (si_nsingle si + 1)%nat ->
  (In (x, y) (charge_pairs si) <-> y = S x /\ (x < si_nsingle si)%nat).
Proof.
  intros si x y E. unfold charge_pairs. rewrite in_map_iff. split.
  - intros (c & Q & H). injection Q as <- <-. apply in_seq in H. split; [auto|lia].
  - intros [-> H]. exists x. split; auto. apply in_seq. lia.
Qed.

Lemma charge_setup : forall n name si, (1 <= n)%nat -> indexed n name si -> ix_of name n = IxCharge ->
  (forall x, In x (seq 0 (si_ncharge si)) -> exists s, nth x (si_chargelst si) [] = seq s (length (nth x (si_chargelst si) []))) /\
  (forall x, In x (seq 0 (si_ncharge si)) -> blk_charge si x = Some (nth x (si_chargelst si) [])).
Proof.
  intros n name si Hn HI Hix. destruct (indexed_facts _ _ _ Hn HI) as (En & Enc & Eix & live & OK & _).
  destruct (indexed_contiguous n name si ltac:(congruence) HI) as (M & EM). split.
  - intros x _. rewrite EM. destruct (enum_from_row_seq _ M 0 x) as (a & len & ->). exists a. now rewrite seq_length.
  - intros x Hx. apply in_seq in Hx. unfold blk_charge. apply nth_error_of_nth. rewrite (ok_cl_len _ _ OK). lia.
Qed.

(** *** C21 *)
(** 'charge': any history of removed Fock states, any eigenvector matrices *)
Theorem C21_charge : forall n name si nleads v T0 l, (1 <= n)%nat -> indexed n name si -> ix_of name n = IxCharge ->
  (l < nleads)%nat -> hermitian (si_nmany si) (T0 l) -> connects si neighbours (T0 l) ->
  exists R R', rotate_Tba K si nleads IxCharge (VeCharge K v) T0 l = Some R /\
    rotate_Tba K si nleads IxLin (VeCharge K v) T0 l = Some R' /\ same (si_nmany si) R R'.
Proof.
  intros n name si nleads v T0 l Hn HI Hix Hl HT HS.
  destruct (indexed_facts _ _ _ Hn HI) as (En & Enc & _).
  destruct (charge_family n name si Hn HI v (or_intror Hix)) as (CO & (P & EP & HP) & KE).
  destruct (charge_setup n name si Hn HI Hix) as [CONT BO].
  destruct (blockwise_pairs nat Nat.eq_dec _ _ _ _ v P false (blk_charge si) CO HP CONT BO ltac:(easy) (charge_pairs si) (T0 l))
    as (R & E & _ & _ & H).
  { intros x y Hin. apply charge_pairs_in in Hin; [|congruence]. destruct Hin as [-> Hx]. rewrite !in_seq.
    repeat split; try lia. rewrite charge_pairs_in by congruence. lia. }
  exists R, (ndot K (si_nmany si) (ct K P) (ndot K (si_nmany si) (T0 l) P)).
  unfold rotate_Tba. rewrite (proj2 (Nat.ltb_lt _ _) Hl), EP. split; [exact E|]. split; [reflexivity|].
  apply H; auto. intros x y i j Hx Hy Ii Ij N1 N2.
  pose proof Hx as Hx'. pose proof Hy as Hy'. apply in_seq in Hx', Hy'.
  apply KE in Ii; auto. apply KE in Ij; auto. destruct Ii as (s & A & B). destruct Ij as (s' & A' & B').
  apply (HS i j s s'); auto. intros [Q|Q]; [apply N1|apply N2]; apply charge_pairs_in; lia.
Qed.

Lemma sz_setup : forall n name si, (1 <= n)%nat -> indexed n name si -> (ix_of name n = IxSz \/ ix_of name n = IxSsq) ->
  (forall x, In x (sz_cells (si_nsingle si) (si_ncharge si)) -> exists s, sz_blk si x = seq s (length (sz_blk si x))) /\
  (forall x, In x (sz_cells (si_nsingle si) (si_ncharge si)) -> blk_sz si x = Some (sz_blk si x)).
Proof.
  intros n name si Hn HI Hix. destruct (indexed_facts _ _ _ Hn HI) as (En & Enc & Eix & live & OK & _).
  destruct (sz_family_blocks n name si Hn HI Hix) as (_ & _ & _ & SZ).
  replace (si_ncharge si) with (si_nsingle si + 1)%nat by lia. split.
  - now apply sz_contiguous.
  - now apply blk_sz_some.
Qed.

Lemma sz_full : forall n name si, (1 <= n)%nat -> indexed n name si -> ix_of name n = IxSsq ->
  forall x, In x (sz_cells (si_nsingle si) (si_ncharge si)) -> sz_blk si x <> [].
Proof.
  intros n name si Hn HI Hix [c sz] Hx. pose proof Hx as Hx'. apply sz_cells_in in Hx'. destruct Hx' as [Hc Hz].
  destruct (indexed_facts _ _ _ Hn HI) as (En & Enc & Eix & live & OK & _ & EI).
  specialize (EI (or_introl Hix)). rewrite En in Hz.
  destruct (sz_family_blocks n name si Hn HI (or_intror Hix)) as (_ & KE & He & _).
  assert (Hix' : name = "ssq"%string).
  { unfold ix_of in Hix. destruct (String.eqb name "charge"); [discriminate|].
    destruct (String.eqb_spec name "ssq"); auto. destruct (_ && _)%bool; discriminate. }
  destruct (C03_sz_blocks n name Hn He (or_intror Hix')) as (_ & C3 & _).
  destruct (proj1 (C3 c sz ltac:(lia)) Hz) as (s & Ls & A & B).
  intros E. pose proof (KE (c, sz)) as KE'. rewrite E in KE'.
  assert (Hb : (binarylist_to_integer s < 2 ^ n)%nat) by (pose proof (b2i_bound s); congruence).
  assert (II : In (binarylist_to_integer s) (si_i si)).
  { rewrite EI. apply (ok_i_in _ _ (si_init_ok n name)). rewrite init_n. auto. }
  apply In_nth with (d := 0%nat) in II. destruct II as (i & Hi & Ei).
  apply (proj2 (KE' i Hx)). exists s. split; [|auto]. rewrite get_state_occ by auto. rewrite Ei, En.
  f_equal. unfold occ. rewrite <- Ls. apply itb_b2i. rewrite <- Ls in Hn. destruct s; simpl in *; [lia|discriminate].
Qed.

Lemma sz_prs : forall n name si up, (1 <= n)%nat -> indexed n name si -> (ix_of name n = IxSz \/ ix_of name n = IxSsq) ->
  let cells := sz_cells (si_nsingle si) (si_ncharge si) in
  (forall x y, In (x, y) (sz_pairs si up) -> In x cells /\ In y cells /\ x <> y /\ ~ In (y, x) (sz_pairs si up)) /\
  forall T0, connects si (spin_neighbours up) T0 ->
  forall x y i j, In x cells -> In y cells -> In i (sz_blk si x) -> In j (sz_blk si y) ->
    ~ In (x, y) (sz_pairs si up) -> ~ In (y, x) (sz_pairs si up) -> T0 i j = 0.
Proof.
  intros n name si up Hn HI Hix cells.
  destruct (indexed_facts _ _ _ Hn HI) as (En & Enc & _).
  destruct (sz_family_blocks n name si Hn HI Hix) as (_ & KE & He & _). fold cells in KE.
  assert (PI := fun x y => sz_pairs_in si up x y ltac:(congruence) ltac:(congruence)). fold cells in PI. split.
  - intros x y Hin. apply PI in Hin. destruct Hin as (A & B & D & _).
    repeat split; auto; [intros ->; lia|]. rewrite PI. lia.
  - intros T0 HS x y i j Hx Hy Ii Ij N1 N2.
    apply KE in Ii; auto. apply KE in Ij; auto. destruct Ii as (s & A1 & A2 & A3). destruct Ij as (s' & B1 & B2 & B3).
    apply (HS i j s s'); auto. intros [[Q1 Q2]|[Q1 Q2]]; [apply N1|apply N2]; apply PI; repeat split; auto;
      unfold step_of; try congruence.
Qed.

(** 'sz': lead [l] of the first half only carries spin up, the others only spin down *)
Theorem C21_sz : forall n name si nleads v T0 l, (1 <= n)%nat -> indexed n name si -> ix_of name n = IxSz ->
  (l < nleads)%nat -> hermitian (si_nmany si) (T0 l) -> connects si (spin_neighbours (Nat.ltb l (nleads / 2))) (T0 l) ->
  exists R R', rotate_Tba K si nleads IxSz (VeSz K v) T0 l = Some R /\
    rotate_Tba K si nleads IxLin (VeSz K v) T0 l = Some R' /\ same (si_nmany si) R R'.
Proof.
  intros n name si nleads v T0 l Hn HI Hix Hl HT HS.
  destruct (sz_family_blocks n name si Hn HI (or_introl Hix)) as (CO & _).
  destruct (sz_family n name si Hn HI v Hix) as (P & EP & HP).
  destruct (sz_setup n name si Hn HI (or_introl Hix)) as [CONT BO].
  destruct (sz_prs n name si (Nat.ltb l (nleads / 2)) Hn HI (or_introl Hix)) as [PR ZE].
  destruct (blockwise_pairs _ eqcz _ _ _ _ (vec_sz K si v) P false (blk_sz si) CO HP CONT BO ltac:(easy) _ (T0 l) PR)
    as (R & E & _ & _ & H).
  exists R, (ndot K (si_nmany si) (ct K P) (ndot K (si_nmany si) (T0 l) P)).
  unfold rotate_Tba. rewrite (proj2 (Nat.ltb_lt _ _) Hl), EP. split; [exact E|]. split; [reflexivity|].
  apply H; auto. now apply ZE.
Qed.

Theorem C21_ssq : forall n name si nleads v T0 l, (1 <= n)%nat -> indexed n name si -> ix_of name n = IxSsq ->
  shaped si (VeSsq K v) ->
  (l < nleads)%nat -> hermitian (si_nmany si) (T0 l) -> connects si (spin_neighbours (Nat.ltb l (nleads / 2))) (T0 l) ->
  exists R R', rotate_Tba K si nleads IxSsq (VeSsq K v) T0 l = Some R /\
    rotate_Tba K si nleads IxLin (VeSsq K v) T0 l = Some R' /\ same (si_nmany si) R R'.
Proof.
  intros n name si nleads v T0 l Hn HI Hix SH Hl HT HS.
  destruct (sz_family_blocks n name si Hn HI (or_intror Hix)) as (CO & _).
  destruct (ssq_family n name si Hn HI v Hix SH) as (P & EP & HP).
  destruct (sz_setup n name si Hn HI (or_intror Hix)) as [CONT BO].
  destruct (sz_prs n name si (Nat.ltb l (nleads / 2)) Hn HI (or_intror Hix)) as [PR ZE].
  destruct (blockwise_pairs _ eqcz _ _ _ _ (vec_ssq K si v) P true (blk_sz si) CO HP CONT BO
     (fun _ => sz_full n name si Hn HI Hix) _ (T0 l) PR) as (R & E & _ & _ & H).
  exists R, (ndot K (si_nmany si) (ct K P) (ndot K (si_nmany si) (T0 l) P)).
  unfold rotate_Tba. rewrite (proj2 (Nat.ltb_lt _ _) Hl), EP. split; [exact E|]. split; [reflexivity|].
  apply H; auto. now apply ZE.
Qed.

(** phonon couplings; no condition of Hermiticity *)
Theorem C21_phonons : forall n name si nbaths v V0 l, (1 <= n)%nat -> indexed n name si -> ix_of name n <> IxLin ->
  shaped si v -> (l < nbaths)%nat ->
  connects si (match ix_of name n with IxCharge => same_charge | _ => same_sector end) (V0 l) ->
  exists R R', rotate_Vbbp K si nbaths (ix_of name n) v V0 l = Some R /\
    rotate_Vbbp K si nbaths IxLin v V0 l = Some R' /\ same (si_nmany si) R R'.
Proof.
  intros n name si nbaths v V0 l Hn HI Hne SH Hl HS.
  destruct (indexed_facts _ _ _ Hn HI) as (En & Enc & Eix & _).
  pose proof SH as SH'. unfold shaped in SH'. rewrite Eix in SH'.
  assert (SEC : (ix_of name n = IxSz \/ ix_of name n = IxSsq) -> connects si same_sector (V0 l) ->
    forall x y i j, In x (sz_cells (si_nsingle si) (si_ncharge si)) -> In y (sz_cells (si_nsingle si) (si_ncharge si)) ->
      In i (sz_blk si x) -> In j (sz_blk si y) -> x <> y -> V0 l i j = 0).
  { intros Hix HS' [c z] [c' z'] i j Hx Hy Ii Ij N.
    destruct (sz_family_blocks n name si Hn HI Hix) as (_ & KE & _).
    apply KE in Ii; auto. apply KE in Ij; auto. destruct Ii as (s & A1 & A2 & A3). destruct Ij as (s' & B1 & B2 & B3).
    apply (HS' i j s s'); auto. intros [Q1 Q2]. apply N. cbn [fst snd] in *. congruence. }
  unfold rotate_Vbbp. rewrite (proj2 (Nat.ltb_lt _ _) Hl).
  destruct (ix_of name n) eqn:Hix; [easy| | |]; destruct v as [v|v|v]; try contradiction.
  - destruct (charge_family n name si Hn HI v (or_intror Hix)) as (CO & (P & EP & HP) & KE).
    destruct (charge_setup n name si Hn HI Hix) as [CONT BO].
    destruct (blockwise_diags nat Nat.eq_dec _ _ _ _ v P false (blk_charge si) CO HP CONT BO ltac:(easy) (V0 l))
      as (R & E & _ & _ & H).
    exists R. eexists. split; [exact E|]. rewrite EP. split; [reflexivity|]. apply H.
    intros x y i j Hx Hy Ii Ij N. apply KE in Ii; auto. apply KE in Ij; auto.
    destruct Ii as (s & A & B). destruct Ij as (s' & A' & B'). apply (HS i j s s'); auto. unfold same_charge. congruence.
  - destruct (sz_family_blocks n name si Hn HI (or_introl Hix)) as (CO & _).
    destruct (sz_family n name si Hn HI v Hix) as (P & EP & HP).
    destruct (sz_setup n name si Hn HI (or_introl Hix)) as [CONT BO].
    destruct (blockwise_diags _ eqcz _ _ _ _ (vec_sz K si v) P false (blk_sz si) CO HP CONT BO ltac:(easy) (V0 l))
      as (R & E & _ & _ & H).
    exists R. eexists. split; [exact E|]. rewrite EP. split; [reflexivity|]. apply H. apply SEC; auto.
  - destruct (sz_family_blocks n name si Hn HI (or_intror Hix)) as (CO & _).
    destruct (ssq_family n name si Hn HI v Hix SH) as (P & EP & HP).
    destruct (sz_setup n name si Hn HI (or_intror Hix)) as [CONT BO].
    destruct (blockwise_diags _ eqcz _ _ _ _ (vec_ssq K si v) P true (blk_sz si) CO HP CONT BO
      (fun _ => sz_full n name si Hn HI Hix) (V0 l)) as (R & E & _ & _ & H).
    exists R. eexists. split; [exact E|]. rewrite EP. split; [reflexivity|]. apply H. apply SEC; auto.
Qed.

(** Hermitian and charge-selective, whatever the eigenvectors; [ixp] is the indexing or 'Lin' *)
Theorem C21_hermitian_and_selection : forall n name si nleads ixp v T0 l R, (1 <= n)%nat -> indexed n name si ->
  (ixp = IxLin \/ ixp = ix_of name n) -> shaped si v ->
  rotate_Tba K si nleads ixp v T0 l = Some R ->
  (hermitian (si_nmany si) (T0 l) -> hermitian (si_nmany si) R) /\
  (connects si neighbours (T0 l) -> forall i j s s', get_state si i = Some s -> get_state si j = Some s' ->
     ~ neighbours s s' -> R i j = 0).
Proof.
  intros n name si nleads ixp v T0 l R Hn HI Hp SH E.
  destruct (indexed_facts _ _ _ Hn HI) as (En & Enc & Eix & live & OK & _).
  assert (LT : forall i s, get_state si i = Some s -> (i < si_nmany si)%nat).
  { intros i s Q. rewrite (ok_nmany _ _ OK). unfold get_state in Q. apply nth_error_Some. now destruct (nth_error (si_i si) i). }
  assert (LIN : rotate_Tba K si nleads IxLin v T0 l = Some R ->
    (hermitian (si_nmany si) (T0 l) -> hermitian (si_nmany si) R) /\
    (connects si neighbours (T0 l) -> forall i j s s', get_state si i = Some s -> get_state si j = Some s' ->
     ~ neighbours s s' -> R i j = 0)).
  { intros EL. destruct (families n name si Hn HI v SH) as [X xeq cells pre blk V P key CO EP HP _ KE].
    unfold rotate_Tba in EL. destruct (Nat.ltb l nleads); [|discriminate]. rewrite EP in EL. injection EL as <-. split.
    - intros HT i j Hi Hj. destruct (place_ex X cells pre blk _ CO i Hi) as (x & a & Hx).
      destruct (place_ex X cells pre blk _ CO j Hj) as (y & b & Hy).
      rewrite (lin_val K X xeq cells pre blk _ CO V P (T0 l) x a i y b j HP Hx Hy).
      rewrite (lin_val K X xeq cells pre blk _ CO V P (T0 l) y b j x a i HP Hy Hx).
      eapply rot_el_herm; eauto; [apply Hx|apply Hy].
    - intros HS i j s s' Es Es' Nn.
      destruct (place_ex X cells pre blk _ CO i (LT _ _ Es)) as (x & a & Hx).
      destruct (place_ex X cells pre blk _ CO j (LT _ _ Es')) as (y & b & Hy).
      rewrite (lin_val K X xeq cells pre blk _ CO V P (T0 l) x a i y b j HP Hx Hy).
      apply rot_el_zero. intros a' b' Ha Hb.
      destruct (KE x _ (proj1 Hx) (nth_In _ 0%nat Ha)) as (t & A1 & A2).
      destruct (KE y _ (proj1 Hy) (nth_In _ 0%nat Hb)) as (t' & B1 & B2).
      apply (HS _ _ t t'); auto. intros Q. apply Nn. unfold neighbours in *.
      destruct (KE x i (proj1 Hx) (place_in _ _ _ _ _ _ Hx)) as (s1 & C1 & C2).
      destruct (KE y j (proj1 Hy) (place_in _ _ _ _ _ _ Hy)) as (s2 & D1 & D2).
      assert (s1 = s) by congruence. assert (s2 = s') by congruence. subst. lia. }
  destruct Hp as [->|Hp]; [auto|]. subst ixp.
  pose proof SH as SH'. unfold shaped in SH'. rewrite Eix in SH'.
  destruct (ix_of name n) eqn:Hix; [auto| | |]; destruct v as [v|v|v]; try contradiction;
    unfold rotate_Tba in E; destruct (Nat.ltb l nleads); try discriminate.
  - destruct (charge_family n name si Hn HI v (or_intror Hix)) as (CO & (P & EP & HP) & KE).
    destruct (charge_setup n name si Hn HI Hix) as [CONT BO].
    destruct (blockwise_pairs nat Nat.eq_dec _ _ _ _ v P false (blk_charge si) CO HP CONT BO ltac:(easy) (charge_pairs si) (T0 l))
      as (R' & E' & H1 & H2 & _).
    { intros x y Hin. apply charge_pairs_in in Hin; [|congruence]. destruct Hin as [-> Hx]. rewrite !in_seq.
      repeat split; try lia. rewrite charge_pairs_in by congruence. lia. }
    assert (R' = R) by congruence. subst R'. split; [auto|]. intros _ i j s s' Es Es' Nn.
    destruct (place_ex _ _ _ _ _ CO i (LT _ _ Es)) as (x & a & Hx).
    destruct (place_ex _ _ _ _ _ CO j (LT _ _ Es')) as (y & b & Hy).
    destruct (proj1 (KE x i (proj1 Hx)) (place_in _ _ _ _ _ _ Hx)) as (s1 & C1 & C2).
    destruct (proj1 (KE y j (proj1 Hy)) (place_in _ _ _ _ _ _ Hy)) as (s2 & D1 & D2).
    assert (s1 = s) by congruence. assert (s2 = s') by congruence. subst.
    apply (H2 _ _ _ _ _ _ Hx Hy); rewrite charge_pairs_in by congruence; unfold neighbours in Nn; lia.
  - destruct (sz_family_blocks n name si Hn HI (or_introl Hix)) as (CO & KE & He & _).
    destruct (sz_family n name si Hn HI v Hix) as (P & EP & HP).
    destruct (sz_setup n name si Hn HI (or_introl Hix)) as [CONT BO].
    destruct (sz_prs n name si (Nat.ltb l (nleads / 2)) Hn HI (or_introl Hix)) as [PR _].
    destruct (blockwise_pairs _ eqcz _ _ _ _ (vec_sz K si v) P false (blk_sz si) CO HP CONT BO ltac:(easy) _ (T0 l) PR)
      as (R' & E' & H1 & H2 & _).
    assert (R' = R) by congruence. subst R'. split; [auto|]. intros _ i j s s' Es Es' Nn.
    destruct (place_ex _ _ _ _ _ CO i (LT _ _ Es)) as (x & a & Hx).
    destruct (place_ex _ _ _ _ _ CO j (LT _ _ Es')) as (y & b & Hy).
    destruct (proj1 (KE x i (proj1 Hx)) (place_in _ _ _ _ _ _ Hx)) as (s1 & C1 & C2 & _).
    destruct (proj1 (KE y j (proj1 Hy)) (place_in _ _ _ _ _ _ Hy)) as (s2 & D1 & D2 & _).
    assert (s1 = s) by congruence. assert (s2 = s') by congruence. subst.
    apply (H2 _ _ _ _ _ _ Hx Hy); rewrite sz_pairs_in by congruence; unfold neighbours in Nn; lia.
  - destruct (sz_family_blocks n name si Hn HI (or_intror Hix)) as (CO & KE & He & _).
    destruct (ssq_family n name si Hn HI v Hix SH) as (P & EP & HP).
    destruct (sz_setup n name si Hn HI (or_intror Hix)) as [CONT BO].
    destruct (sz_prs n name si (Nat.ltb l (nleads / 2)) Hn HI (or_intror Hix)) as [PR _].
    destruct (blockwise_pairs _ eqcz _ _ _ _ (vec_ssq K si v) P true (blk_sz si) CO HP CONT BO
      (fun _ => sz_full n name si Hn HI Hix) _ (T0 l) PR) as (R' & E' & H1 & H2 & _).
    assert (R' = R) by congruence. subst R'. split; [auto|]. intros _ i j s s' Es Es' Nn.
    destruct (place_ex _ _ _ _ _ CO i (LT _ _ Es)) as (x & a & Hx).
    destruct (place_ex _ _ _ _ _ CO j (LT _ _ Es')) as (y & b & Hy).
    destruct (proj1 (KE x i (proj1 Hx)) (place_in _ _ _ _ _ _ Hx)) as (s1 & C1 & C2 & _).
    destruct (proj1 (KE y j (proj1 Hy)) (place_in _ _ _ _ _ _ Hy)) as (s2 & D1 & D2 & _).
    assert (s1 = s) by congruence. assert (s2 = s') by congruence. subst.
    apply (H2 _ _ _ _ _ _ Hx Hy); rewrite sz_pairs_in by congruence; unfold neighbours in Nn; lia.
Qed.

(** *** A similarity transformation *)
Definition delta (i j : nat) : C := if Nat.eqb i j then 1 else 0.
(** rows of every block of eigenvectors are orthonormal: V V^dagger = 1 *)
Definition unitary_rows (si : SI) (v : Vecs K) : Prop := forall b w, In (b, w) (blocks_of si v) ->
  forall a a', (a < length b)%nat -> (a' < length b)%nat ->
    rsum (fun k => w a k * conj (w a' k)) (seq 0 (length b)) = delta a a'.
Definition unitary_columns (si : SI) (v : Vecs K) : Prop := forall b w, In (b, w) (blocks_of si v) ->
  forall a a', (a < length b)%nat -> (a' < length b)%nat ->
    rsum (fun k => conj (w k a) * w k a') (seq 0 (length b)) = delta a a'.

Lemma sum_delta : forall m (f : nat -> C) i, (i < m)%nat -> rsum (fun k => f k * delta k i) (seq 0 m) = f i.
Proof.
  intros m f i Hi. rewrite (rsum_single _ _ _ _ i (seq_NoDup m 0)).
  - unfold delta. rewrite Nat.eqb_refl. ring.
  - apply in_seq. lia.
  - intros k _ Hk. unfold delta. destruct (Nat.eqb_spec k i); [easy|ring].
Qed.

Theorem C21_unitary : forall n name si v, (1 <= n)%nat -> indexed n name si -> shaped si v -> unitary_rows si v ->
  exists P, full_pmtr K si v = Some P /\
    forall i j, (i < si_nmany si)%nat -> (j < si_nmany si)%nat ->
      rsum (fun k => P i k * conj (P j k)) (seq 0 (si_nmany si)) = delta i j.
Proof.
  intros n name si v Hn HI SH HU. destruct (families n name si Hn HI v SH) as [X xeq cells pre blk V P key CO EP HP BL _].
  exists P. split; auto. intros i j Hi Hj.
  destruct (place_ex _ _ _ _ _ CO i Hi) as (x & a & Hx). destruct (place_ex _ _ _ _ _ CO j Hj) as (y & b & Hy).
  destruct (place_val _ _ _ _ _ _ Hx) as [Ei La]. destruct (place_val _ _ _ _ _ _ Hy) as [Ej Lb].
  rewrite (sum_at K X xeq cells pre blk _ CO (fun z c => V z a c * (if xeq y z then conj (V y b c) else 0)) _ x (proj1 Hx)).
  - destruct (xeq y x) as [->|Hne].
    + rewrite (HU (blk x) (V x)) by (auto; apply BL, Hx). unfold delta.
      destruct (Nat.eqb_spec a b) as [->|Hab].
      * replace i with j by congruence. now rewrite Nat.eqb_refl.
      * destruct (Nat.eqb_spec i j) as [->|]; auto. destruct (place_inj _ _ _ _ _ CO _ _ _ _ _ Hx Hy). congruence.
    + rewrite rsum_0 by (intros; ring). unfold delta. destruct (Nat.eqb_spec i j) as [->|]; auto.
      destruct (place_inj _ _ _ _ _ CO _ _ _ _ _ Hx Hy). congruence.
  - intros z c Hz Hc. pose proof (place_nth _ _ _ z c Hz Hc) as Hzc.
    rewrite (HP x a i z c _ Hx Hzc), (HP y b j z c _ Hy Hzc).
    destruct (xeq x z) as [E1|E1]; destruct (xeq z x) as [E2|E2]; try congruence; [|ring].
    subst z. destruct (xeq y x); rewrite ?conj_0; reflexivity.
Qed.

(** products and traces are preserved *)
Theorem C21_similarity : forall n name si nleads v A B l, (1 <= n)%nat -> indexed n name si -> shaped si v ->
  unitary_rows si v -> (l < nleads)%nat ->
  let m := si_nmany si in
  exists RA RB RAB, rotate_Tba K si nleads IxLin v A l = Some RA /\ rotate_Tba K si nleads IxLin v B l = Some RB /\
    rotate_Tba K si nleads IxLin v (fun l => ndot K m (A l) (B l)) l = Some RAB /\
    same m (ndot K m RA RB) RAB /\
    rsum (fun i => RA i i) (seq 0 m) = rsum (fun i => A l i i) (seq 0 m).
Proof.
  intros n name si nleads v A B l Hn HI SH HU Hl m.
  destruct (C21_unitary n name si v Hn HI SH HU) as (P & EP & UN). fold m in UN.
  unfold rotate_Tba. rewrite (proj2 (Nat.ltb_lt _ _) Hl), EP. fold m.
  eexists. eexists. eexists. split; [reflexivity|]. split; [reflexivity|]. split; [reflexivity|].
  set (S := seq 0 m).
  assert (IN : forall i, In i S -> (i < m)%nat) by (intros i Hi; apply in_seq in Hi; lia).
  assert (EL : forall T i j, ndot K m (ct K P) (ndot K m T P) i j =
     rsum (fun p => rsum (fun q => conj (P p i) * T p q * P q j) S) S).
  { intros T i j. unfold ndot, ct. fold S. apply rsum_ext. intros p _. rewrite <- rsum_mul_l. apply rsum_ext. intros. ring. }
  split.
  - intros i j Hi Hj. rewrite EL. unfold ndot at 1. fold S.
    rewrite (rsum_ext _ _ _ (fun k => rsum (fun p => rsum (fun q => rsum (fun r => rsum (fun t =>
        conj (P p i) * A l p q * B l r t * P t j * (P q k * conj (P r k))) S) S) S) S)).
    2: { intros k _. rewrite !EL. rewrite <- rsum_mul_r. apply rsum_ext. intros p _. rewrite <- rsum_mul_r.
         apply rsum_ext. intros q _. rewrite <- rsum_mul_l. apply rsum_ext. intros r _. rewrite <- rsum_mul_l.
         apply rsum_ext. intros t _. ring. }
    rewrite rsum_swap. apply rsum_ext. intros p Hp. rewrite rsum_swap.
    rewrite (rsum_ext _ _ _ (fun q => rsum (fun t => conj (P p i) * A l p q * B l q t * P t j) S)).
    2: { intros q Hq. rewrite rsum_swap.
         rewrite (rsum_ext _ _ _ (fun r => rsum (fun t => conj (P p i) * A l p q * B l r t * P t j) S * delta r q)).
         2: { intros r Hr. rewrite rsum_swap. rewrite <- rsum_mul_r. apply rsum_ext. intros t Ht.
              rewrite rsum_mul_l. f_equal. unfold S. rewrite UN by auto. unfold delta. rewrite Nat.eqb_sym. reflexivity. }
         unfold S at 2. rewrite sum_delta by auto. reflexivity. }
    rewrite rsum_swap. apply rsum_ext. intros t Ht. unfold ndot. fold S.
    rewrite <- rsum_mul_l, <- rsum_mul_r. apply rsum_ext. intros q _. ring.
  - fold S. rewrite (rsum_ext _ _ _ (fun i => rsum (fun p => rsum (fun q => A l p q * (P q i * conj (P p i))) S) S)).
    2: { intros i _. rewrite EL. apply rsum_ext. intros p _. apply rsum_ext. intros q _. ring. }
    rewrite rsum_swap. apply rsum_ext. intros p Hp. rewrite rsum_swap.
    rewrite (rsum_ext _ _ _ (fun q => A l p q * delta q p)).
    + unfold S. apply sum_delta. auto.
    + intros q Hq. rewrite rsum_mul_l. unfold S. now rewrite UN by auto.
Qed.

(** *** The matrices that are rotated are the constructed ones *)
(** level [i] of a spin-conserving problem is in the half that belongs to the spin of lead [l] *)
Definition spin_conserving (n nleads : nat) (tleads : list ((nat * nat) * C)) : Prop :=
  forall l i t, In ((l, i), t) tleads -> spin_of n i = if Nat.ltb l (nleads / 2) then 1%Z else (-1)%Z.

Definition one_level (i : nat) (s s' : list bool) : Prop :=
  (occ_at i s = false /\ s' = put i true s) \/ (occ_at i s = true /\ s' = put i false s).

Lemma tunnel_zero : forall tleads l n s' s, length s' = n -> length s = n ->
  (forall l i t, In ((l, i), t) tleads -> (i < n)%nat) ->
  (forall i t, In ((l, i), t) tleads -> ~ one_level i s s') ->
  mel C (tunnel_op K tleads l) s' s = 0.
Proof.
  intros tleads l n s' s Ls' Ls HT N. unfold tunnel_op. rewrite osum_mel. apply rsum_0.
  intros [[l0 i] t] He. pose proof (HT _ _ _ He) as Hi. destruct (Nat.eqb_spec l0 l) as [->|]; [|reflexivity].
  specialize (N i t He). unfold one_level in N. unfold mel, oplus, oscale. rewrite cre_basis, ann_basis by lia.
  destruct (occ_at i s) eqn:Eo.
  - rewrite basis_neq by (intros ->; apply N; auto). ring.
  - rewrite basis_neq by (intros ->; apply N; auto). ring.
Qed.

Theorem C21_constructed : forall n name ops si nleads tleads Tba v l, reachable_si n name ops si ->
  ix_of name n <> IxLin ->
  (forall l i t, In ((l, i), t) tleads -> (l < nleads /\ i < n)%nat) ->
  (ix_of name n <> IxCharge -> spin_conserving n nleads tleads) ->
  construct_Tba K si nleads tleads zeros = Some Tba -> shaped si v -> (l < nleads)%nat ->
  let T0 := fun l i j => Tba (l, i, j) in
  exists R R', rotate_Tba K si nleads (ix_of name n) v T0 l = Some R /\
    rotate_Tba K si nleads IxLin v T0 l = Some R' /\ same (si_nmany si) R R'.
Proof.
  intros n name ops si nleads tleads Tba v l RS Hne HT HS EC SH Hl T0.
  assert (Hn : (1 <= n)%nat) by apply RS.
  assert (HI : indexed n name si).
  { destruct RS as (_ & Hk & E & Hor). exists ops. split; [|auto].
    destruct Hor as [?|[?|[[? _]|?]]]; auto. congruence. }
  pose proof (reachable_correct _ _ _ _ RS) as RC.
  assert (HH : hermitian (si_nmany si) (T0 l)).
  { intros i j Hi Hj. apply (C13_hermitian_and_selection K n name ops si nleads tleads Tba RS HT EC l i j Hi Hj). }
  destruct (C13_tunnelling K n name ops si nleads tleads zeros RS HT) as (T & ET & HV).
  assert (T = Tba) by congruence. subst T. clear ET.
  destruct (indexed_facts _ _ _ Hn HI) as (En & Enc & Eix & live & OK & _).
  assert (LT : forall i s, get_state si i = Some s -> (i < si_nmany si)%nat).
  { intros i s Q. rewrite (ok_nmany _ _ OK). unfold get_state in Q. apply nth_error_Some. now destruct (nth_error (si_i si) i). }
  assert (CN : forall R : list bool -> list bool -> Prop,
    (forall i t s s', In ((l, i), t) tleads -> length s = n -> one_level i s s' -> R s' s) -> connects si R (T0 l)).
  { intros R HR i j s s' Es Es' Nn. unfold T0. rewrite (HV l i j s s') by eauto. unfold zeros.
    assert (Ls : length s = n) by (apply (gs_len _ _ _ RC i s (LT _ _ Es) Es)).
    assert (Ls' : length s' = n) by (apply (gs_len _ _ _ RC j s' (LT _ _ Es') Es')).
    rewrite (tunnel_zero tleads l n s s'); auto.
    - ring.
    - intros l0 i0 t0 Hin. apply (HT _ _ _ Hin).
    - intros i0 t0 Hin O. apply Nn. eapply HR; eauto. }
  assert (NB : connects si neighbours (T0 l)).
  { apply CN. intros i t s s' Hin Ls O. destruct (HT _ _ _ Hin) as [_ Hi]. unfold neighbours. rewrite <- !ones_electrons.
    destruct O as [[Eo ->]|[Eo ->]].
    - right. apply ones_put_true; auto. lia.
    - left. symmetry. apply ones_put_false; auto. lia. }
  assert (SN : ix_of name n <> IxCharge -> connects si (spin_neighbours (Nat.ltb l (nleads / 2))) (T0 l)).
  { intros Hc. apply CN. intros i t s s' Hin Ls O. destruct (HT _ _ _ Hin) as [_ Hi].
    pose proof (HS Hc l i t Hin) as Sp. unfold spin_neighbours, added. rewrite <- !ones_electrons.
    destruct O as [[Eo ->]|[Eo ->]].
    - right. split; [apply ones_put_true; auto; lia|]. rewrite umd_put_true by (auto; lia). now rewrite Ls, Sp.
    - left. split; [symmetry; apply ones_put_false; auto; lia|]. rewrite umd_put_false by (auto; lia). rewrite Ls, Sp. lia. }
  pose proof SH as SH'. unfold shaped in SH'. rewrite Eix in SH'.
  destruct (ix_of name n) eqn:Hix; [easy| | |]; destruct v as [v|v|v]; try contradiction.
  - eapply C21_charge; eauto.
  - eapply C21_sz; eauto. apply SN. discriminate.
  - eapply C21_ssq; eauto. apply SN. discriminate.
Qed.
End Rotate.
Print Assumptions C21_charge.
Print Assumptions C21_sz.
Print Assumptions C21_ssq.
Print Assumptions C21_phonons.
Print Assumptions C21_hermitian_and_selection.
Print Assumptions C21_unitary.
Print Assumptions C21_similarity.
Print Assumptions C21_constructed.

(** *** Examples *)
Definition zc_eqb (a b : Cx ZRing) : bool := (Z.eqb (re a) (re b) && Z.eqb (im a) (im b))%bool.
Definition agree (A B : mat ZRing) : bool :=
  forallb (fun p => zc_eqb (A (fst p) (snd p)) (B (fst p) (snd p))) (list_prod [0; 1; 3; 7] [0; 1; 4; 6; 9; 12]).
(** eigenvector matrices without any symmetry *)
Definition ex_w (c a b : nat) : Cx ZRing := ZC (Z.of_nat (1 + a + 2 * b)) (Z.of_nat (a * b + c) - 2).
Definition ex_tleads : list ((nat * nat) * Cx ZRing) :=
  [((0, 0), ZC 3 4); ((0, 1), ZC 1 (-2)); ((1, 2), ZC 5 6); ((1, 3), ZC 0 7)].

(** rotates block by block and at once; compares some elements and shows some *)
Definition ex_run (name : string) (ops : list (list nat)) (tleads : list ((nat * nat) * Cx ZRing)) (v : SI -> Vecs ZRing)
                  (l : nat) (ps : list (nat * nat)) : option (bool * list (Cx ZRing)) :=
  match remove_many (si_init 4 name) ops with
  | Some si =>
      match construct_Tba ZRing si 2 tleads zeros with
      | Some Tba =>
          let T0 := fun l i j => Tba (l, i, j) in
          match rotate_Tba ZRing si 2 (si_indexing si) (v si) T0 l, rotate_Tba ZRing si 2 IxLin (v si) T0 l with
          | Some R, Some R' => Some (agree R R', map (fun p => R (fst p) (snd p)) ps)
          | _, _ => None
          end
      | None => None
      end
  | None => None
  end.
Definition ex_vc (si : SI) : Vecs ZRing := VeCharge ZRing ex_w.
Definition ex_vs (si : SI) : Vecs ZRing := VeSz ZRing (fun c k => ex_w (c + k)).
Definition ex_vq (si : SI) : Vecs ZRing :=
  VeSsq ZRing (fun c k => map (fun row => (List.length row, ex_w (c + List.length row))) (nth k (nth c (ssql si) []) [])).

(** after removing Fock states 5 and 9 *)
Example C21_charge_case : ex_run "charge" [[5]; [9]] ex_tleads ex_vc 0 [(0, 1); (1, 0); (1, 2); (1, 6)] =
  Some (true, [ZC 41 12; ZC 41 (-12); ZC 0 0; ZC 175 (-60)]).
Proof. vm_compute. reflexivity. Qed.
Example C21_sz_case : ex_run "sz" [[5]; [9]] ex_tleads ex_vs 0 [(0, 3); (3, 0); (1, 2); (1, 7)] =
  Some (true, [ZC 19 8; ZC 19 (-8); ZC 0 0; ZC 45 15]).
Proof. vm_compute. reflexivity. Qed.
Example C21_ssq_case : ex_run "ssq" [] ex_tleads ex_vq 1 [(0, 1); (1, 0); (1, 2); (1, 5)] =
  Some (true, [ZC 37 9; ZC 37 (-9); ZC 0 0; ZC 3 9]).
Proof. vm_compute. reflexivity. Qed.
Example C21_case_hypotheses :
  (forall l i t, In ((l, i), t) ex_tleads -> l < 2 /\ i < 4) /\ spin_conserving ZRing 4 2 ex_tleads /\
  shaped ZRing (si_init 4 "ssq") (ex_vq (si_init 4 "ssq")).
Proof.
  split; [|split].
  - intros l i t H. repeat (destruct H as [E|H]; [injection E as <- <- _; lia|]). destruct H.
  - intros l i t H. repeat (destruct H as [E|H]; [injection E as <- <- _; reflexivity|]). destruct H.
  - unfold shaped. cbn [si_indexing si_init ix_of String.eqb]. cbn. intros c sz Hc Hz.
    rewrite map_map. reflexivity.
Qed.
(** a unitary matrix in every block, with phases: states a and b = len-1-a are exchanged *)
Definition ex_u (si : SI) (c a b : nat) : Cx ZRing :=
  if Nat.eqb (S (a + b)) (List.length (nth c (si_chargelst si) [])) then (if Nat.even a then ZC 0 1 else ZC (-1) 0) else ZC 0 0.
Example C21_unitary_case : unitary_rows ZRing (si_init 3 "charge") (VeCharge ZRing (ex_u (si_init 3 "charge"))) /\
  shaped ZRing (si_init 3 "charge") (VeCharge ZRing (ex_u (si_init 3 "charge"))).
Proof.
  split; [|exact I]. intros b w H. apply in_map_iff in H. destruct H as (c & E & Hc).
  pose proof (f_equal fst E) as E1. pose proof (f_equal snd E) as E2. cbn [fst snd] in E1, E2. clear E. subst b w.
  assert (EL : List.length (nth c (si_chargelst (si_init 3 "charge")) []) = nth c [1; 3; 3; 1] 0).
  { destruct Hc as [<-|[<-|[<-|[<-|[]]]]]; vm_compute; reflexivity. }
  intros a a' Ha Ha'. rewrite EL in *.
  destruct Hc as [<-|[<-|[<-|[<-|[]]]]]; cbn [nth] in *;
    destruct a as [|[|[|a]]]; try lia; destruct a' as [|[|[|a']]]; try lia; vm_compute; reflexivity.
Qed.
(** phonon couplings that keep the spin *)
Definition ex_run_ph (name : string) (v : SI -> Vecs ZRing) (ps : list (nat * nat)) : option (bool * list (Cx ZRing)) :=
  let si := si_init 4 name in
  match elph_construct_Vbbp ZRing si 1 [((0, 0, 1), ZC 2 3); ((0, 2, 3), ZC 1 (-4)); ((0, 2, 2), ZC 5 0)] zeros with
  | Some V =>
      let V0 := fun l i j => V (l, i, j) in
      match rotate_Vbbp ZRing si 1 (si_indexing si) (v si) V0 0, rotate_Vbbp ZRing si 1 IxLin (v si) V0 0 with
      | Some R, Some R' => Some (agree R R', map (fun p => R (fst p) (snd p)) ps)
      | _, _ => None
      end
  | None => None
  end.
Example C21_phonon_case : ex_run_ph "sz" ex_vs [(6, 7)] = Some (true, [ZC 288 28]) /\
  ex_run_ph "ssq" ex_vq [(6, 7)] = Some (true, [ZC 448 (-42)]) /\
  ex_run_ph "charge" ex_vc [(6, 7)] = Some (true, [ZC 1143 (-9)]).
Proof. vm_compute. auto. Qed.

(** Without spin conservation 'sz' loses amplitudes: lead 0 couples to level 2, which is a spin-down level.
    Rotating at once and block by block then differ (the flag is false). *)
Theorem C21_sz_spin_flip_refuted :
  ex_run "sz" [] [((0, 0), ZC 3 4); ((0, 2), ZC 5 6)] ex_vs 0 [(0, 1); (0, 3)] = Some (false, [ZC 0 0; ZC 22 4]).
Proof. vm_compute. reflexivity. Qed.
Print Assumptions C21_sz_spin_flip_refuted.
