(** What an assembled kernel does to a vector. *)
From Coq Require Import String List Arith Lia ZArith Bool Permutation Ring.
From Verif Require Import Base DMIndex DMIndexProofs CRing Layout Kernel.
Import ListNotations.
Open Scope nat_scope.
Local Notation length := List.length.

(** ** combinations_with_replacement *)
Lemma combinations_wr_in : forall l b bp,
  In (b, bp) (combinations_wr l) <-> (b = bp /\ In b l) \/ In (b, bp) (combinations2 l).
Proof.
  induction l as [|x l IH]; intros b bp.
  - simpl. tauto.
  - cbn [combinations_wr combinations2]. rewrite !in_app_iff, !in_map_iff, IH. simpl. split.
    + intros [(y & E & [<-|H])|[[-> H]|H]].
      * injection E as <- <-. auto.
      * injection E as <- <-. right. left. exists y. auto.
      * auto.
      * auto.
    + intros [[-> [->|H]]|[(y & E & H)|H]].
      * left. exists bp. auto.
      * right. auto.
      * injection E as <- <-. left. exists y. auto.
      * auto.
Qed.

Lemma combinations_wr_nodup : forall l, NoDup l -> NoDup (combinations_wr l).
Proof.
  induction l as [|x l IH]; intros ND; cbn [combinations_wr]; [constructor|].
  inversion ND as [|? ? Hx ND']; subst. apply NoDup_app_intro.
  - apply FinFun.Injective_map_NoDup; [intros a b E; now injection E|auto].
  - apply IH; auto.
  - intros [u v] H1 H2. apply in_map_iff in H1. destruct H1 as (y & E & H1). injection E as <- <-.
    apply combinations_wr_in in H2. destruct H2 as [[-> H2]|H2]; [auto|].
    apply (combinations2_in l x y ND') in H2. tauto.
Qed.

Section Act.
Variable K : CRing.
Local Notation C := (Cx K).
Local Open Scope rng_scope.
Add Ring KrA : (rth K).
Add Ring CrA : (rth (Cx K)).

(** row [i] of the product of a matrix with [size] columns and a vector *)
Definition act (size : nat) (m : Z * Z -> K) (phi : Z -> K) (i : Z) : K :=
  rsum (fun j => m (i, Z.of_nat j) * phi (Z.of_nat j)) (seq 0 size).

Definition inr (size : nat) (k : Z) : Prop := (0 <= k < Z.of_nat size)%Z.

Lemma act_updates : forall size (us : list ((Z * Z) * K)) phi i,
  (forall u, In u us -> inr size (snd (fst u))) ->
  act size (run_updates eqZZ us zeros) phi i =
  rsum (fun u : (Z * Z) * K => if Z.eq_dec i (fst (fst u)) then snd u * phi (snd (fst u)) else 0) us.
Proof.
  intros size us phi i H. unfold act.
  rewrite (rsum_ext K _ _ (fun j => rsum (fun u : (Z * Z) * K =>
     if eqZZ (i, Z.of_nat j) (fst u) then snd u * phi (Z.of_nat j) else 0) us)).
  2:{ intros j _. rewrite run_updates_sum. unfold zeros.
      replace ((0 + rsum (fun u : (Z * Z) * K => if eqZZ (i, Z.of_nat j) (fst u) then snd u else 0) us) * phi (Z.of_nat j))
        with (rsum (fun u : (Z * Z) * K => if eqZZ (i, Z.of_nat j) (fst u) then snd u else 0) us * phi (Z.of_nat j)) by ring.
      rewrite <- rsum_mul_r. apply rsum_ext. intros u _. destruct (eqZZ _ _); ring. }
  rewrite rsum_swap. apply rsum_ext. intros [[r c] v] Hu. specialize (H _ Hu). cbn [fst snd] in *.
  destruct (Z.eq_dec i r) as [<-|Hr].
  - destruct H as [H1 H2].
    rewrite (rsum_single K _ _ (seq 0 size) (Z.to_nat c)).
    + rewrite Z2Nat.id by lia. destruct (eqZZ _ _); [ring|congruence].
    + apply seq_NoDup.
    + apply in_seq. lia.
    + intros y Hy Hne. destruct (eqZZ _ _) as [E|E]; auto. injection E as E. lia.
  - apply rsum_0. intros j _. destruct (eqZZ _ _) as [E|E]; auto. congruence.
Qed.

Variable L : Lay.
Hypothesis LO : layout L.
Variable phi : Z -> K.
Local Notation rho := (rho K L phi).

(** elements that take part *)
Definition el (b bp : nat) (c : Z) : Prop :=
  (0 <= c)%Z /\ In b (states L c) /\ In bp (states L c) /\ ind0 L b bp c <> (-1)%Z.

Lemma el_cases : forall b bp c, el b bp c ->
  (b = bp /\ (0 <= ind0 L b bp c < npauliZ L)%Z /\ has_imag L (ind0 L b bp c) = false) \/
  (b <> bp /\ (npauliZ L <= ind0 L b bp c < ndm0Z L)%Z /\ has_imag L (ind0 L b bp c) = true).
Proof.
  intros b bp c (Hc & Hb & Hbp & Hi). unfold has_imag, imag_ind, npauliZ, ndm0Z.
  destruct (Nat.eq_dec b bp) as [<-|Hne].
  - left. destruct (lo_diag L LO b c Hc Hb) as (H & _). split; auto. split; auto.
    apply Z.leb_gt. lia.
  - right. destruct (lo_off L LO b bp c Hc Hb Hbp Hne) as (_ & H). destruct (H Hi) as (H1 & _).
    split; auto. split; auto. apply Z.leb_le. lia.
Qed.

Lemma el_inr : forall b bp c, el b bp c -> inr (ly_ndm0r L) (ind0 L b bp c) /\
  (has_imag L (ind0 L b bp c) = true -> inr (ly_ndm0r L) (imag_ind L (ind0 L b bp c)) /\
                                        (ndm0Z L <= imag_ind L (ind0 L b bp c))%Z).
Proof.
  intros b bp c H. pose proof (lo_size L LO) as S0. pose proof (lo_le L LO) as S1.
  unfold inr, imag_ind, npauliZ, ndm0Z in *.
  destruct (el_cases b bp c H) as [(-> & A & B)|(Hne & A & B)]; unfold npauliZ, ndm0Z in *.
  - split; [lia|]. rewrite B. discriminate.
  - split; [lia|]. intros _. lia.
Qed.

Definition target_of (x : call K) : option (nat * nat * Z) :=
  match x with
  | CEnergy _ _ b bp c => Some (b, bp, c)
  | CElem _ _ b bp c _ _ _ => Some (b, bp, c)
  | CPauli _ _ _ _ _ => None
  end.
(** the value a call contributes to the right-hand side of  i d rho_{b bp}/dt *)
Definition gval (x : call K) : C :=
  match x with
  | CEnergy _ e b bp c => ofR e * rho b bp c
  | CElem _ f _ _ _ a ap ac => f * rho a ap ac
  | CPauli _ _ _ _ _ => 0
  end.
Definition call_ok (b bp : nat) (c : Z) (x : call K) : Prop :=
  match x with
  | CEnergy _ e b' bp' c' => b' = b /\ bp' = bp /\ c' = c
  | CElem _ _ b' bp' c' a ap ac => b' = b /\ bp' = bp /\ c' = c /\ el a ap ac
  | CPauli _ _ _ _ _ => False
  end.

Lemma rho_el : forall a ap ac, el a ap ac ->
  re (rho a ap ac) = phi (ind0 L a ap ac) /\
  im (rho a ap ac) = (if has_imag L (ind0 L a ap ac) then
     (if cnj L a ap ac then 1 else - (1)) * phi (imag_ind L (ind0 L a ap ac)) else 0).
Proof.
  intros a ap ac H. pose proof H as (H0 & H1 & H2 & H3). unfold Kernel.rho. apply Z.eqb_neq in H3. rewrite H3. cbn [re im].
  split; auto. destruct (has_imag _ _); auto. destruct (cnj _ _ _ _); ring.
Qed.

Lemma rho_not : forall a ap ac, ind0 L a ap ac = (-1)%Z -> rho a ap ac = 0.
Proof. intros a ap ac H. unfold Kernel.rho. now rewrite H. Qed.

(** the two rows of one call *)
Definition row_part (v : C) (b bp : nat) (c : Z) (i : Z) : K :=
  (if Z.eq_dec i (ind0 L b bp c) then im v else 0) +
  (if has_imag L (ind0 L b bp c) then if Z.eq_dec i (imag_ind L (ind0 L b bp c)) then - re v else 0 else 0).

Lemma row_part_add : forall v w b bp c i, row_part (v + w) b bp c i = row_part v b bp c i + row_part w b bp c i.
Proof.
  intros. unfold row_part. rewrite re_add, im_add.
  destruct (has_imag _ _); destruct (Z.eq_dec i (ind0 L b bp c)); try destruct (Z.eq_dec i (imag_ind L (ind0 L b bp c))); ring.
Qed.
Lemma row_part_0 : forall b bp c i, row_part 0 b bp c i = 0.
Proof.
  intros. unfold row_part. change (re (0 : C)) with (0 : K). change (im (0 : C)) with (0 : K).
  destruct (has_imag _ _); destruct (Z.eq_dec i (ind0 L b bp c)); try destruct (Z.eq_dec i (imag_ind L (ind0 L b bp c))); ring.
Qed.
Lemma row_part_sum : forall A (f : A -> C) l b bp c i,
  rsum (fun x => row_part (f x) b bp c i) l = row_part (rsum f l) b bp c i.
Proof.
  induction l; intros; cbn [rsum].
  - now rewrite row_part_0.
  - rewrite row_part_add. now rewrite IHl.
Qed.

Definition hit_row (i : Z) (u : (Z * Z) * K) : K :=
  if Z.eq_dec i (fst (fst u)) then snd u * phi (snd (fst u)) else 0.

Lemma call_row : forall x b bp c i, el b bp c -> uniq L b bp c = true -> call_ok b bp c x ->
  (match x with CEnergy _ e _ _ _ => b = bp -> e = 0 | _ => True end) ->
  rsum (hit_row i) (kh_updates K L x) = row_part (gval x) b bp c i.
Proof.
  intros x b bp c i EL U OK HE. destruct x as [e b' bp' c'|f b' bp' c' a ap ac|]; [| |destruct OK].
  - destruct OK as (-> & -> & ->). unfold gval, row_part. cbn [kh_updates].
    destruct (rho_el b bp c EL) as [R1 R2].
    destruct (el_cases b bp c EL) as [(Hb & A & B)|(Hne & A & B)]; rewrite B in *.
    + rewrite (HE Hb). cbn [rsum]. rewrite im_mul. cbn [re im ofR]. rewrite R2.
      destruct (Z.eq_dec i _); ring.
    + assert (CJ : cnj L b bp c = true).
      { destruct EL as (H0 & H1 & H2 & H3). destruct (lo_off L LO b bp c H0 H1 H2 Hne) as (_ & H).
        destruct (H H3) as (_ & _ & -> & _). auto. }
      rewrite CJ in R2. cbn [rsum]. unfold hit_row. cbn [fst snd]. rewrite re_mul, im_mul. cbn [re im ofR].
      rewrite R1, R2.
      destruct (Z.eq_dec i (ind0 L b bp c)); destruct (Z.eq_dec i (imag_ind L (ind0 L b bp c))); ring.
  - destruct OK as (-> & -> & -> & EA). unfold gval, row_part. cbn [kh_updates].
    destruct (rho_el a ap ac EA) as [R1 R2]. rewrite re_mul, im_mul, R1, R2.
    destruct (has_imag L (ind0 L a ap ac)); destruct (has_imag L (ind0 L b bp c)); cbn [rsum app]; unfold hit_row; cbn [fst snd];
    destruct (Z.eq_dec i (ind0 L b bp c)); try destruct (Z.eq_dec i (imag_ind L (ind0 L b bp c)));
    destruct (cnj L a ap ac); ring.
Qed.

Lemma call_cols : forall x b bp c u, el b bp c -> call_ok b bp c x -> In u (kh_updates K L x) ->
  inr (ly_ndm0r L) (fst (fst u)) /\ inr (ly_ndm0r L) (snd (fst u)).
Proof.
  intros x b bp c u EL OK Hu. destruct (el_inr b bp c EL) as [B1 B2].
  destruct x as [e b' bp' c'|f b' bp' c' a ap ac|]; [| |destruct OK].
  - destruct OK as (-> & -> & ->). cbn [kh_updates] in Hu.
    destruct (has_imag L (ind0 L b bp c)); [|destruct Hu]. destruct (B2 eq_refl) as [B3 _].
    destruct Hu as [<-|[<-|[]]]; simpl; auto.
  - destruct OK as (-> & -> & -> & EA). destruct (el_inr a ap ac EA) as [A1 A2]. cbn [kh_updates] in Hu.
    destruct (has_imag L (ind0 L a ap ac)); destruct (has_imag L (ind0 L b bp c)); cbn [app] in Hu;
    try destruct (A2 eq_refl) as [A3 _]; try destruct (B2 eq_refl) as [B3 _]; simpl in Hu;
    repeat (destruct Hu as [<-|Hu]; [simpl; auto|]); destruct Hu.
Qed.

(** ** The assembled kernel *)
Section Gen.
Variables (E : nat -> K) (cpl : nat -> nat -> Z -> list (call K)).
Hypothesis CPL : forall b bp c x, el b bp c -> In x (cpl b bp c) -> call_ok b bp c x /\
  (match x with CEnergy _ _ _ _ _ => False | _ => True end).

(** right-hand side of  i d rho_{b bp}/dt *)
Definition G (b bp : nat) (c : Z) : C := ofR (E b - E bp) * rho b bp c + rsum gval (cpl b bp c).

Lemma charges_in : forall c, In c (charges L) <-> (0 <= c < Z.of_nat (ly_ncharge L))%Z.
Proof.
  intros c. unfold charges. rewrite in_map_iff. split.
  - intros (k & <- & H). apply in_seq in H. lia.
  - intros H. exists (Z.to_nat c). split; [lia|]. apply in_seq. lia.
Qed.
Lemma charges_nodup : NoDup (charges L).
Proof. unfold charges. apply FinFun.Injective_map_NoDup; [|apply seq_NoDup]. intros a b. lia. Qed.

Lemma pair_el : forall c p, In c (charges L) -> In p (combinations_wr (states L c)) ->
  is_included L (fst p) (snd p) c = true -> el (fst p) (snd p) c.
Proof.
  intros c [b bp] Hc Hp Hi. cbn [fst snd] in *. apply charges_in in Hc.
  unfold is_included in Hi. apply negb_true_iff, Z.eqb_neq in Hi.
  assert (In b (states L c) /\ In bp (states L c)).
  { apply combinations_wr_in in Hp. destruct Hp as [[-> H]|H]; auto.
    apply combinations2_in in H; [tauto|]. apply (lo_nodup L LO). lia. }
  split; [lia|]. tauto.
Qed.

Lemma gen_calls_ok : forall x, In x (generate_kern K L E cpl) -> exists b bp c, el b bp c /\ uniq L b bp c = true /\
  call_ok b bp c x.
Proof.
  intros x Hx. unfold generate_kern in Hx. apply in_flat_map in Hx. destruct Hx as (c & Hc & Hx).
  apply in_flat_map in Hx. destruct Hx as ([b bp] & Hp & Hx).
  destruct (is_included L b bp c && is_unique L b bp c)%bool eqn:I; [|destruct Hx].
  apply andb_prop in I. destruct I as [I1 I2].
  assert (EL := pair_el c (b, bp) Hc Hp I1). cbn [fst snd] in EL.
  exists b, bp, c. split; auto. split; [exact I2|]. destruct Hx as [<-|Hx]; [cbn; auto|].
  apply (CPL b bp c x EL Hx).
Qed.

(** every index written is inside the ndm0r x ndm0r kernel *)
Lemma gen_in_range : forall u, In u (flat_map (kh_updates K L) (generate_kern K L E cpl)) ->
  inr (ly_ndm0r L) (fst (fst u)) /\ inr (ly_ndm0r L) (snd (fst u)).
Proof.
  intros u Hu. apply in_flat_map in Hu. destruct Hu as (x & Hx & Hu).
  destruct (gen_calls_ok x Hx) as (b & bp & c & EL & _ & OK). eapply call_cols; eauto.
Qed.

Lemma act_generate : forall i,
  act (ly_ndm0r L) (kern_of K L (generate_kern K L E cpl)) phi i =
  rsum (fun c => rsum (fun p => if (is_included L (fst p) (snd p) c && is_unique L (fst p) (snd p) c)%bool
                                then row_part (G (fst p) (snd p) c) (fst p) (snd p) c i else 0)
                      (combinations_wr (states L c))) (charges L).
Proof.
  intros i. unfold kern_of. rewrite act_updates by (intros; eapply gen_in_range; eauto).
  change (rsum (hit_row i) (flat_map (kh_updates K L) (generate_kern K L E cpl)) =
  rsum (fun c => rsum (fun p => if (is_included L (fst p) (snd p) c && is_unique L (fst p) (snd p) c)%bool
                                then row_part (G (fst p) (snd p) c) (fst p) (snd p) c i else 0)
                      (combinations_wr (states L c))) (charges L)).
  rewrite rsum_flat_map. unfold generate_kern. rewrite rsum_flat_map. apply rsum_ext. intros c Hc.
  rewrite rsum_flat_map. apply rsum_ext. intros [b bp] Hp. cbn [fst snd].
  destruct (is_included L b bp c && is_unique L b bp c)%bool eqn:I; [|reflexivity].
  apply andb_prop in I. destruct I as [I1 I2].
  assert (EL := pair_el c (b, bp) Hc Hp I1). cbn [fst snd] in EL.
  cbn [rsum]. unfold G. rewrite row_part_add. f_equal.
  - rewrite (call_row _ b bp c i EL I2); cbn; auto. intros ->. ring.
  - rewrite <- row_part_sum. apply rsum_ext. intros x Hx. destruct (CPL b bp c x EL Hx) as [OK NE].
    apply call_row; auto. destruct x; auto. destruct NE.
Qed.

(** the row that belongs to a unique element *)
Lemma rows_apart : forall b bp c b' bp' c', el b bp c -> el b' bp' c' -> uniq L b bp c = true -> uniq L b' bp' c' = true ->
  ind0 L b bp c = ind0 L b' bp' c' -> b = b' /\ bp = bp' /\ c = c'.
Proof.
  intros b bp c b' bp' c' (H0 & H1 & H2 & H3) (H0' & H1' & H2' & H3') U U' EQ.
  destruct (lo_inj L LO b bp c b' bp' c') as (-> & [[-> ->]|[-> ->]]); auto.
  destruct (Nat.eq_dec bp' b') as [->|Hne]; auto.
  destruct (lo_off L LO bp' b' c' H0' H1 H2 Hne) as (_ & H). destruct (H H3) as (_ & X & _). rewrite U, U' in X. discriminate.
Qed.

Lemma unique_listed : forall b bp c, el b bp c -> uniq L b bp c = true ->
  In c (charges L) /\ In (b, bp) (combinations_wr (states L c)).
Proof.
  intros b bp c (H0 & H1 & H2 & H3) U. split.
  - apply charges_in. split; auto. apply (lo_range L LO c b); auto.
  - apply combinations_wr_in. destruct (Nat.eq_dec b bp) as [->|Hne]; auto.
    right. now apply (lo_order L LO).
Qed.

Theorem kernel_rows : forall b bp c, el b bp c -> uniq L b bp c = true ->
  act (ly_ndm0r L) (kern_of K L (generate_kern K L E cpl)) phi (ind0 L b bp c) = im (G b bp c) /\
  (b <> bp ->
   act (ly_ndm0r L) (kern_of K L (generate_kern K L E cpl)) phi (imag_ind L (ind0 L b bp c)) = - re (G b bp c)).
Proof.
  intros b bp c EL U. destruct (unique_listed b bp c EL U) as [Lc Lp].
  assert (INC : (is_included L b bp c && is_unique L b bp c)%bool = true).
  { unfold is_included, is_unique. rewrite U. destruct EL as (_ & _ & _ & H3). apply Z.eqb_neq in H3. now rewrite H3. }
  assert (ONE : forall i, (i = ind0 L b bp c \/ (b <> bp /\ i = imag_ind L (ind0 L b bp c))) ->
    act (ly_ndm0r L) (kern_of K L (generate_kern K L E cpl)) phi i = row_part (G b bp c) b bp c i).
  { intros i Hi. rewrite act_generate.
    assert (Z0 : forall c' p, In c' (charges L) -> In p (combinations_wr (states L c')) -> (c', p) <> (c, (b, bp)) ->
       (if (is_included L (fst p) (snd p) c' && is_unique L (fst p) (snd p) c')%bool
        then row_part (G (fst p) (snd p) c') (fst p) (snd p) c' i else 0) = 0).
    { intros c' [b' bp'] Hc' Hp' Hne. cbn [fst snd].
      destruct (is_included L b' bp' c' && is_unique L b' bp' c')%bool eqn:I; auto.
      apply andb_prop in I. destruct I as [I1 I2]. assert (EL' := pair_el c' (b', bp') Hc' Hp' I1). cbn [fst snd] in EL'.
      assert (NE : ind0 L b' bp' c' <> ind0 L b bp c).
      { intros EQ. destruct (rows_apart _ _ _ _ _ _ EL' EL I2 U EQ) as (-> & -> & ->). now apply Hne. }
      unfold row_part.
      pose proof (el_cases _ _ _ EL) as CA. pose proof (el_cases _ _ _ EL') as CB.
      unfold imag_ind in *. unfold npauliZ, ndm0Z in *.
      destruct (Z.eq_dec i (ind0 L b' bp' c')) as [Q|Q].
      - exfalso. destruct Hi as [Hi|[Hb Hi]]; [congruence|].
        destruct CA as [(? & _)|(_ & A & _)]; [congruence|].
        destruct CB as [(_ & B & _)|(_ & B & _)]; pose proof (lo_le L LO); lia.
      - destruct CB as [(_ & _ & ->)|(Hbb & B & ->)]; [ring|].
        destruct (Z.eq_dec _ _) as [Q2|Q2]; [|ring]. exfalso.
        destruct Hi as [Hi|[Hb Hi]]; [|lia].
        destruct CA as [(_ & A & _)|(_ & A & _)]; pose proof (lo_le L LO); lia. }
    rewrite (rsum_single K _ _ (charges L) c charges_nodup Lc).
    - rewrite (rsum_single K _ _ (combinations_wr (states L c)) (b, bp)).
      + cbn [fst snd]. now rewrite INC.
      + apply combinations_wr_nodup. apply (lo_nodup L LO). apply EL.
      + auto.
      + intros p Hp Hne. apply Z0; auto. congruence.
    - intros c' Hc' Hne. apply rsum_0. intros p Hp. apply Z0; auto. congruence. }
  split; [rewrite ONE by auto|intros Hne; rewrite ONE by auto]; unfold row_part;
  destruct (el_cases b bp c EL) as [(Hb & A & B)|(Hne' & A & B)]; rewrite B; unfold imag_ind, npauliZ, ndm0Z in *.
  - destruct (Z.eq_dec _ _); [ring|congruence].
  - destruct (Z.eq_dec _ _) as [Q|Q]; [|congruence]. destruct (Z.eq_dec _ _) as [Q2|Q2]; [|ring]. lia.
  - congruence.
  - destruct (Z.eq_dec _ _) as [Q|Q]; [lia|]. destruct (Z.eq_dec _ _) as [Q2|Q2]; [ring|congruence].
Qed.
End Gen.
End Act.
