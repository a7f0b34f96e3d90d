(** Row sums and weighted row sums of the Pauli kernel. *)
From Coq Require Import String List Arith Lia ZArith Bool Permutation Ring.
From Verif Require Import Base SsqProofs Qn DMIndex DMIndexProofs CRing Layout Kernel KernelProofs.
Import ListNotations.
Open Scope nat_scope.
Local Notation length := List.length.

Lemma map_nodup_in : forall A B (f : A -> B) l, (forall x y, In x l -> In y l -> f x = f y -> x = y) ->
  NoDup l -> NoDup (map f l).
Proof.
  induction l as [|a l IH]; simpl; intros H ND; [constructor|]. inversion ND; subst. constructor; auto.
  intros X. apply in_map_iff in X. destruct X as (y & E & Hy). apply H in E; auto. now subst.
Qed.

Section PauliP.
Variable K : CRing.
Local Open Scope rng_scope.
Add Ring KrP : (rth K).
Variable L : Lay.
Hypothesis LO : layout L.
Local Notation act := (act K).

(** ** Sums over the diagonal elements *)
Definition diag_list : list Z := flat_map (fun c => map (fun b => ind0 L b b c) (states L c)) (charges L).

Lemma diag_perm : Permutation diag_list (map Z.of_nat (seq 0 (ly_npauli L))).
Proof.
  apply NoDup_Permutation.
  - unfold diag_list. apply NoDup_flat_map.
    + apply charges_nodup.
    + intros c Hc. apply charges_in in Hc. apply map_nodup_in.
      * intros x y Hx Hy EQ. destruct (lo_diag L LO x c) as (A & _); auto; try lia.
        destruct (lo_inj L LO x x c y y c) as (_ & [[-> _]|[-> _]]); auto; lia.
      * apply (lo_nodup L LO). lia.
    + intros c c' k Hc Hc' H1 H2. apply charges_in in Hc, Hc'. apply in_map_iff in H1, H2.
      destruct H1 as (x & E1 & H1). destruct H2 as (y & E2 & H2).
      destruct (lo_diag L LO x c) as (A & _); auto; try lia.
      destruct (lo_inj L LO x x c y y c') as (-> & _); auto; lia.
  - apply FinFun.Injective_map_NoDup; [intros a b; lia|apply seq_NoDup].
  - intros k. unfold diag_list. rewrite in_flat_map, in_map_iff. split.
    + intros (c & Hc & H). apply charges_in in Hc. apply in_map_iff in H. destruct H as (b & <- & Hb).
      destruct (lo_diag L LO b c) as (A & _); auto; try lia.
      exists (Z.to_nat (ind0 L b b c)). split; [lia|]. apply in_seq. lia.
    + intros (j & <- & Hj). apply in_seq in Hj. destruct (lo_surj L LO j) as (b & c & H0 & H1 & H2); [lia|].
      exists c. split.
      * apply charges_in. split; auto. apply (lo_range L LO c b); auto.
      * apply in_map_iff. exists b. auto.
Qed.

Lemma diag_sum : forall f : Z -> K,
  rsum (fun c => rsum (fun b => f (ind0 L b b c)) (states L c)) (charges L) =
  rsum (fun k => f (Z.of_nat k)) (seq 0 (ly_npauli L)).
Proof.
  intros f. rewrite <- (rsum_map K _ _ f Z.of_nat). rewrite <- (rsum_perm K _ f _ _ diag_perm).
  unfold diag_list. rewrite rsum_flat_map. apply rsum_ext. intros c _. now rewrite rsum_map.
Qed.

(** unit vectors *)
Definition unit_vec (j : Z) : Z -> K := fun k => if Z.eq_dec k j then 1 else 0.
Lemma act_unit : forall size m i j, j < size -> act size m (unit_vec (Z.of_nat j)) i = m (i, Z.of_nat j).
Proof.
  intros size m i j Hj. unfold KernelProofs.act.
  rewrite (rsum_single K _ _ (seq 0 size) j).
  - unfold unit_vec. destruct (Z.eq_dec _ _); [ring|congruence].
  - apply seq_NoDup.
  - apply in_seq. lia.
  - intros y _ Hy. unfold unit_vec. destruct (Z.eq_dec _ _) as [E|E]; [|ring]. lia.
Qed.

(** ** Charges *)
Lemma low_nonneg : forall bc a, (0 <= bc)%Z -> In a (states L (bc - 1)) -> (0 <= bc - 1)%Z.
Proof.
  intros bc a H Ha. destruct (Z.eq_dec bc 0) as [->|]; [|lia].
  change (0 - 1)%Z with (-1)%Z in Ha. rewrite (lo_below L LO) in Ha. destruct Ha.
Qed.

(** moving the sum over neighbouring sectors one charge up *)
Lemma shift_links : forall f : Z -> K,
  f (-1)%Z = 0 -> f (Z.of_nat (ly_ncharge L) - 1)%Z = 0 ->
  rsum (fun c => f (c - 1)%Z) (charges L) = rsum f (charges1 L) /\
  rsum f (charges L) = rsum f (charges1 L).
Proof.
  intros f H0 H1. unfold charges, charges1. destruct (ly_ncharge L) as [|m]; [split; reflexivity|].
  replace (S m - 1)%nat with m by lia. rewrite !rsum_map. split.
  - cbn [seq rsum]. change (Z.of_nat 0 - 1)%Z with (-1)%Z. rewrite H0.
    rewrite <- seq_shift. rewrite rsum_map.
    rewrite (rsum_ext K _ _ (fun x => f (Z.of_nat x))); [ring|].
    intros x _. f_equal. lia.
  - rewrite seq_S. rewrite rsum_app. cbn [rsum]. replace (Z.of_nat (0 + m)) with (Z.of_nat (S m) - 1)%Z by lia.
    rewrite H1. ring.
Qed.

(** ** The Pauli kernel *)
Section Rates.
Variables (nl : nat) (pf : nat -> nat -> bool -> K) (phi : Z -> K).
Local Notation kern := (kern_of K L (pauli_calls K L nl pf)).
Local Notation flow := (pauli_flow K L phi pf).
Local Notation LS := (leads nl).

(** net change of rho_bb due to one lead *)
Definition gain (b : nat) (bc : Z) : K :=
  rsum (fun a => rsum (fun l => flow l b a (bc - 1)) LS) (states L (bc - 1)) -
  rsum (fun c => rsum (fun l => flow l c b bc) LS) (states L (bc + 1)).

Lemma pauli_call_in : forall b c x, (0 <= c)%Z -> In b (states L c) -> In x (pauli_coupling K L nl pf b b c) ->
  exists fm fp aa, x = CPauli K fm fp (ind0 L b b c) aa /\ inr (ly_npauli L) aa.
Proof.
  intros b c x Hc Hb Hx. unfold pauli_coupling in Hx. apply in_app_iff in Hx.
  destruct Hx as [Hx|Hx]; apply in_map_iff in Hx; destruct Hx as (a & <- & Ha);
    eexists; eexists; eexists; (split; [reflexivity|]); unfold inr.
  - apply (lo_diag L LO); auto. eapply low_nonneg; eauto.
  - apply (lo_diag L LO); auto. lia.
Qed.

Lemma pauli_act : forall i,
  act (ly_npauli L) kern phi i =
  rsum (fun c => rsum (fun b => if Z.eq_dec i (ind0 L b b c) then gain b c else 0) (states L c)) (charges L).
Proof.
  intros i. unfold kern_of. rewrite act_updates.
  - rewrite rsum_flat_map. unfold pauli_calls, generate_kern_pauli. rewrite rsum_flat_map. apply rsum_ext.
    intros c Hc. apply charges_in in Hc. rewrite rsum_flat_map. apply rsum_ext. intros b Hb.
    unfold is_unique. destruct (lo_diag L LO b c) as (A & -> & _); auto; try lia.
    unfold pauli_coupling. rewrite rsum_app, !rsum_map.
    rewrite (rsum_ext K _ _ (fun a => if Z.eq_dec i (ind0 L b b c) then rsum (fun l => flow l b a (c - 1)) LS else 0) (states L (c - 1))).
    2:{ intros a Ha. cbn [kh_updates rsum]. cbn [fst snd]. destruct (Z.eq_dec _ _); [|ring].
        replace (rsum (fun l => - pf l (ind1 L b a (c - 1)) true) LS * phi (ind0 L b b c) +
                 (rsum (fun l => pf l (ind1 L b a (c - 1)) false) LS * phi (ind0 L a a (c - 1)) + 0))
          with (rsum (fun l => pf l (ind1 L b a (c - 1)) false) LS * phi (ind0 L a a (c - 1)) +
                rsum (fun l => - pf l (ind1 L b a (c - 1)) true) LS * phi (ind0 L b b c)) by ring.
        rewrite <- !rsum_mul_r, <- rsum_plus. apply rsum_ext. intros l _. unfold Kernel.pauli_flow.
        replace (c - 1 + 1)%Z with c by lia. ring. }
    rewrite (rsum_ext K _ _ (fun x => if Z.eq_dec i (ind0 L b b c) then - rsum (fun l => flow l x b c) LS else 0) (states L (c + 1))).
    2:{ intros x Hx. cbn [kh_updates rsum]. cbn [fst snd]. destruct (Z.eq_dec _ _); [|ring].
        replace (rsum (fun l => - pf l (ind1 L x b c) false) LS * phi (ind0 L b b c) +
                 (rsum (fun l => pf l (ind1 L x b c) true) LS * phi (ind0 L x x (c + 1)) + 0))
          with (rsum (fun l => - pf l (ind1 L x b c) false) LS * phi (ind0 L b b c) +
                rsum (fun l => pf l (ind1 L x b c) true) LS * phi (ind0 L x x (c + 1))) by ring.
        rewrite <- !rsum_mul_r, <- rsum_plus, <- rsum_opp. apply rsum_ext. intros l _. unfold Kernel.pauli_flow. ring. }
    unfold gain. destruct (Z.eq_dec _ _).
    + rewrite rsum_opp. ring.
    + rewrite !rsum_0; auto. ring.
  - intros u Hu. apply in_flat_map in Hu. destruct Hu as (x & Hx & Hu).
    unfold pauli_calls, generate_kern_pauli in Hx.
    apply in_flat_map in Hx. destruct Hx as (c & Hc & Hx). apply charges_in in Hc.
    apply in_flat_map in Hx. destruct Hx as (b & Hb & Hx). destruct (is_unique L b b c); [|destruct Hx].
    destruct (pauli_call_in b c x) as (fm & fp & aa & -> & Ha); auto; try lia.
    destruct (lo_diag L LO b c) as (A & _); auto; try lia.
    destruct Hu as [<-|[<-|[]]]; simpl; auto.
Qed.

Lemma pauli_row : forall b c, (0 <= c)%Z -> In b (states L c) ->
  act (ly_npauli L) kern phi (ind0 L b b c) = gain b c.
Proof.
  intros b c Hc Hb. rewrite pauli_act.
  assert (Lc : In c (charges L)) by (apply charges_in; split; auto; apply (lo_range L LO c b); auto).
  destruct (lo_diag L LO b c Hc Hb) as (A & _).
  assert (Z0 : forall c' b', In c' (charges L) -> In b' (states L c') -> (c', b') <> (c, b) ->
     (if Z.eq_dec (ind0 L b b c) (ind0 L b' b' c') then gain b' c' else 0) = 0).
  { intros c' b' Hc' Hb' Hne. apply charges_in in Hc'. destruct (Z.eq_dec _ _) as [E|E]; auto.
    exfalso. apply Hne. destruct (lo_inj L LO b b c b' b' c') as (-> & [[-> _]|[-> _]]); auto; lia. }
  rewrite (rsum_single K _ _ (charges L) c (charges_nodup L) Lc).
  - rewrite (rsum_single K _ _ (states L c) b); auto.
    + destruct (Z.eq_dec _ _); congruence.
    + apply (lo_nodup L LO). auto.
    + intros y Hy Hne. apply Z0; auto. congruence.
  - intros y Hy Hne. apply rsum_0. intros b' Hb'. apply Z0; auto. congruence.
Qed.

(** weighted sum of the rows *)
Lemma pauli_weighted : forall w : nat -> K,
  rsum (fun c => rsum (fun b => w b * act (ly_npauli L) kern phi (ind0 L b b c)) (states L c)) (charges L) =
  rsum (fun l => rsum (fun bc => rsum (fun c => rsum (fun b => (w c - w b) * flow l c b bc) (states L bc))
                                      (states L (bc + 1))) (charges1 L)) LS.
Proof.
  intros w.
  rewrite (rsum_ext K _ _ (fun c => rsum (fun b => w b * gain b c) (states L c)) (charges L)).
  2:{ intros c Hc. apply charges_in in Hc. apply rsum_ext. intros b Hb. rewrite pauli_row; auto. lia. }
  set (up := fun q => rsum (fun c => rsum (fun b => w c * rsum (fun l => flow l c b q) LS) (states L q)) (states L (q + 1))).
  set (dn := fun q => rsum (fun c => rsum (fun b => w b * rsum (fun l => flow l c b q) LS) (states L q)) (states L (q + 1))).
  rewrite (rsum_ext K _ _ (fun c => up (c - 1)%Z - dn c) (charges L)).
  2:{ intros c Hc. unfold up, dn. replace (c - 1 + 1)%Z with c by lia.
      rewrite rsum_swap with (l := states L (c + 1)). rewrite <- rsum_minus. apply rsum_ext. intros b Hb.
      unfold gain. rewrite !rsum_mul_l. ring. }
  rewrite rsum_minus.
  assert (E1 : up (-1)%Z = 0).
  { unfold up. apply rsum_0. intros c _. rewrite (lo_below L LO). reflexivity. }
  assert (E2 : up (Z.of_nat (ly_ncharge L) - 1)%Z = 0).
  { unfold up. replace (Z.of_nat (ly_ncharge L) - 1 + 1)%Z with (Z.of_nat (ly_ncharge L)) by lia.
    rewrite (lo_above L LO). reflexivity. }
  assert (E3 : dn (-1)%Z = 0).
  { unfold dn. apply rsum_0. intros c _. rewrite (lo_below L LO). reflexivity. }
  assert (E4 : dn (Z.of_nat (ly_ncharge L) - 1)%Z = 0).
  { unfold dn. replace (Z.of_nat (ly_ncharge L) - 1 + 1)%Z with (Z.of_nat (ly_ncharge L)) by lia.
    rewrite (lo_above L LO). reflexivity. }
  destruct (shift_links up E1 E2) as [U1 _]. destruct (shift_links dn E3 E4) as [_ D1].
  rewrite U1, D1. rewrite <- rsum_minus. symmetry. etransitivity; [apply rsum_swap|].
  apply rsum_ext. intros q _. unfold up, dn. rewrite <- rsum_minus.
  etransitivity; [apply rsum_swap|]. apply rsum_ext. intros c _. rewrite <- rsum_minus.
  etransitivity; [apply rsum_swap|]. apply rsum_ext. intros b _. rewrite rsum_mul_l. ring.
Qed.
End Rates.
End PauliP.
