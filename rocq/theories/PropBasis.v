(** Property C56: the results do not depend on which eigenvectors of the Hamiltonian the eigensolver returns. *)
From Coq Require Import String List Arith Lia ZArith Bool Permutation Ring.
From Verif Require Import Base Bits Indexing IndexingProofs RemoveProofs Binom SsqProofs Qn
  PropIndexing DMIndex DMIndexProofs DMReach PropDMIndex CRing Layout Coherences Kernel KernelProofs
  PauliProofs CohProofs CohKernels CohCurrents PropKernel MasterEq PropMaster BasisChange.
Import ListNotations.
Open Scope nat_scope.
Local Notation length := List.length.

(** ** The same density matrix in another basis *)
Section Generic.
Variable K : CRing.
Local Notation C := (Cx K).
Local Open Scope rng_scope.
Add Ring KrPB : (rth K).
Add Ring CrPB : (rth (Cx K)).
Variables (n : nat) (name : string) (si : SI) (L : Lay).
Hypotheses (Hn : (1 <= n)%nat) (Hix : ix_of name n <> IxSsq) (SY : system n name si L).
Let LO : layout L := system_layout n name si L Hn Hix SY.
Let CH := system_charge n name si L Hn Hix SY.
Local Notation N := (charge_of si).
Local Notation SS := (cons_states L).
Local Notation dens := (dens K L N).
Local Notation act := (act K).
(** the element is stored in the vector phi0 *)
Definition kept (s t : nat) : bool := (N s =? N t)%nat && is_included L s t (Z.of_nat (N s)).
Variables (E : nat -> K) (U : Op K) (h : K).
(** the change of basis mixes stored elements with stored elements only *)
Definition keeps : Prop := forall s t u v, In s SS -> In t SS -> In u SS -> In v SS ->
  U s u = 0 \/ U t v = 0 \/ kept s t = kept u v.
(** phi' holds in the new basis the density matrix that phi holds in the old one *)
Definition related (phi phi' : Z -> K) : Prop := same K SS (dens phi') (rot K SS U (dens phi)).
Hypotheses (Hh : h + h = 1) (UN : unitary K SS U) (ME : mixes_equal K SS N E U) (KP : keeps).

Lemma ss_nodup : NoDup SS.
Proof.
  unfold cons_states. apply NoDup_flat_map.
  - apply charges_nodup.
  - intros c Hc. apply charges_in in Hc. apply (lo_nodup L LO). lia.
  - intros c c' b Hc Hc' Hb Hb'. apply charges_in in Hc, Hc'. apply (lo_same L LO c c' b); auto; lia.
Qed.
Lemma ss_block : forall s, In s SS -> In s (states L (Z.of_nat (N s))).
Proof. intros s Hs. now apply (cons_block_of L N CH). Qed.
Lemma kept_el : forall s t, In s SS -> In t SS -> kept s t = true -> el L s t (Z.of_nat (N s)).
Proof.
  intros s t Hs Ht H. unfold kept in H. apply andb_prop in H. destruct H as (A & B). apply Nat.eqb_eq in A.
  unfold is_included in B. apply negb_true_iff, Z.eqb_neq in B. repeat split; auto; [lia|now apply ss_block|].
  rewrite A. now apply ss_block.
Qed.
Lemma el_kept : forall s t c, el L s t c -> In s SS /\ In t SS /\ kept s t = true /\ c = Z.of_nat (N s).
Proof.
  intros s t c (Hc & Hs & Ht & Hi). assert (A : N s = Z.to_nat c) by now apply CH. assert (B : N t = Z.to_nat c) by now apply CH.
  repeat split.
  - now apply (cons_in L LO c).
  - now apply (cons_in L LO c).
  - unfold kept. rewrite A, B, Nat.eqb_refl. rewrite Z2Nat.id by auto. unfold is_included. apply Z.eqb_neq in Hi. now rewrite Hi.
  - lia.
Qed.
Lemma dens_not : forall phi s t, kept s t = false -> dens phi s t = 0.
Proof.
  intros phi s t H. unfold MasterEq.dens. unfold kept in H. destruct (N s =? N t)%nat; auto. cbn [andb] in H.
  apply rho_not. unfold is_included in H. apply negb_false_iff, Z.eqb_eq in H. exact H.
Qed.
Lemma dens_el : forall phi s t c, el L s t c -> dens phi s t = rho K L phi s t c.
Proof. intros phi s t c (Hc & Hs & Ht & Hi). now apply (dens_at K L N CH). Qed.
Lemma rot_not : forall phi s t, In s SS -> In t SS -> kept s t = false -> rot K SS U (dens phi) s t = 0.
Proof.
  intros phi s t Hs Ht H. unfold rot. apply (rsum_0 C). intros u Hu. apply (rsum_0 C). intros v Hv.
  destruct (KP s t u v Hs Ht Hu Hv) as [->|[->|G]]; [ring|rewrite conj_0; ring|]. rewrite dens_not by congruence. ring.
Qed.
Lemma rho_mk : forall phi s t c, el L s t c -> rho K L phi s t c = mkC (phi (ind0 L s t c))
  (if has_imag L (ind0 L s t c) then if cnj L s t c then phi (imag_ind L (ind0 L s t c)) else - phi (imag_ind L (ind0 L s t c)) else 0).
Proof. intros phi s t c (_ & _ & _ & H). unfold rho. apply Z.eqb_neq in H. now rewrite H. Qed.
(** operators that agree on the stored elements *)
Lemma rot_kept : forall (X Y : Op K), (forall u v, In u SS -> In v SS -> kept u v = true -> X u v = Y u v) ->
  forall s t, In s SS -> In t SS -> kept s t = true -> rot K SS U X s t = rot K SS U Y s t.
Proof.
  intros X Y H s t Hs Ht G. unfold rot. apply (rsum_ext C). intros u Hu. apply (rsum_ext C). intros v Hv.
  destruct (KP s t u v Hs Ht Hu Hv) as [->|[->|G']]; [ring|rewrite conj_0; ring|]. rewrite H by congruence. reflexivity.
Qed.

(** *** the new vector exists *)
(** the pair whose element is stored at position k *)
Definition pair_of (k : Z) : option (nat * nat) :=
  find (fun p => let '(s, t) := p in kept s t && uniq L s t (Z.of_nat (N s)) && (ind0 L s t (Z.of_nat (N s)) =? k)%Z) (list_prod SS SS).
Definition enc (X : Op K) (k : Z) : K :=
  if (k <? ndm0Z L)%Z then match pair_of k with Some (s, t) => re (X s t) | None => 0 end
  else match pair_of (k - ndm0Z L + npauliZ L)%Z with Some (s, t) => im (X s t) | None => 0 end.
Lemma pair_of_el : forall s t c, el L s t c -> uniq L s t c = true -> pair_of (ind0 L s t c) = Some (s, t).
Proof.
  intros s t c EL Q. destruct (el_kept s t c EL) as (Hs & Ht & G & ->). unfold pair_of.
  destruct (find _ (list_prod SS SS)) as [[u v]|] eqn:F.
  - apply find_some in F. destruct F as (IN & P). apply in_prod_iff in IN. destruct IN as (Hu & Hv).
    apply andb_prop in P. destruct P as (P & P3). apply andb_prop in P. destruct P as (P1 & P2). apply Z.eqb_eq in P3.
    pose proof (kept_el u v Hu Hv P1) as EL'. destruct EL as (A1 & A2 & A3 & A4). destruct EL' as (B1 & B2 & B3 & B4).
    destruct (lo_inj L LO u v (Z.of_nat (N u)) s t (Z.of_nat (N s))) as (EC & [(-> & ->)|(-> & ->)]); auto.
    destruct (Nat.eq_dec s t) as [->|Hne]; auto. exfalso.
    destruct (lo_off L LO s t (Z.of_nat (N s)) A1 A2 A3 Hne) as (_ & W). destruct (W A4) as (_ & W2 & _). rewrite EC, Q in *. rewrite P2 in W2. discriminate.
  - exfalso. eapply find_none in F; [|apply in_prod; [exact Hs|exact Ht]]. cbv beta iota in F. rewrite G, Q, Z.eqb_refl in F. discriminate.
Qed.
Lemma herm_im : forall x : C, conj x = x -> im x = 0.
Proof.
  intros x H. apply (f_equal (@im K)) in H. cbn [conj im] in H.
  transitivity ((h + h) * im x); [rewrite Hh; ring|]. transitivity (h * (im x - - im x)); [ring|]. rewrite H. ring.
Qed.
Lemma enc_uniq : forall X s t c, (forall s t, In s SS -> In t SS -> conj (X s t) = X t s) -> el L s t c -> uniq L s t c = true ->
  rho K L (enc X) s t c = X s t.
Proof.
  intros X s t c HX EL Q. pose proof (pair_of_el s t c EL Q) as P. rewrite rho_mk by auto.
  destruct (el_kept s t c EL) as (Hs & Ht & _).
  destruct (el_cases L LO s t c EL) as [(-> & R & I)|(Hne & R & I)]; rewrite I.
  - unfold enc. assert ((ind0 L t t c <? ndm0Z L)%Z = true) as ->. { apply Z.ltb_lt. pose proof (lo_le L LO). unfold ndm0Z, npauliZ in *. lia. }
    rewrite P. apply cplx_eq; cbn [re im]; auto. symmetry. apply herm_im. now apply HX.
  - destruct EL as (A1 & A2 & A3 & A4). destruct (lo_off L LO s t c A1 A2 A3 Hne) as (_ & W). destruct (W A4) as (_ & _ & W2 & _). rewrite W2, Q.
    unfold enc, imag_ind. pose proof (lo_le L LO). assert ((ind0 L s t c <? ndm0Z L)%Z = true) as -> by (apply Z.ltb_lt; lia).
    assert ((ndm0Z L + ind0 L s t c - npauliZ L <? ndm0Z L)%Z = false) as -> by (apply Z.ltb_ge; lia).
    replace (ndm0Z L + ind0 L s t c - npauliZ L - ndm0Z L + npauliZ L)%Z with (ind0 L s t c) by lia.
    rewrite P. apply cplx_eq; reflexivity.
Qed.
Lemma enc_rho : forall X s t c, (forall s t, In s SS -> In t SS -> conj (X s t) = X t s) -> el L s t c -> rho K L (enc X) s t c = X s t.
Proof.
  intros X s t c HX EL. destruct (uniq L s t c) eqn:Q; [now apply enc_uniq|].
  destruct (el_kept s t c EL) as (Hs & Ht & _). pose proof EL as (A1 & A2 & A3 & A4).
  assert (Hne : s <> t). { intros ->. destruct (lo_diag L LO t c A1 A2) as (_ & W & _). congruence. }
  destruct (lo_off L LO s t c A1 A2 A3 Hne) as (O1 & W). destruct (W A4) as (_ & O2 & _).
  assert (EL' : el L t s c). { repeat split; auto. now rewrite O1. }
  rewrite <- (HX t s) by auto. rewrite <- (enc_uniq X t s c HX EL') by (rewrite O2, Q; reflexivity).
  symmetry. apply rho_herm; auto.
Qed.
Theorem related_exists : forall phi, exists phi', related phi phi'.
Proof.
  intros phi. exists (enc (rot K SS U (dens phi))). intros s t Hs Ht. destruct (kept s t) eqn:G.
  - pose proof (kept_el s t Hs Ht G) as EL. rewrite (dens_el _ s t _ EL). apply enc_rho; auto.
    intros a b Ha Hb. apply rot_herm_on. intros u v Hu Hv. now apply (dens_herm K L LO N CH).
  - rewrite dens_not by auto. symmetry. now apply rot_not.
Qed.
(** only the density matrix matters *)
Lemma related_ext : forall phi phi1 phi2, related phi phi1 -> (forall k, inr (ly_ndm0r L) k -> phi2 k = phi1 k) -> related phi phi2.
Proof.
  intros phi phi1 phi2 R H s t Hs Ht. rewrite <- R by auto. destruct (kept s t) eqn:G.
  - pose proof (kept_el s t Hs Ht G) as EL. rewrite !(dens_el _ s t _ EL). rewrite !rho_mk by auto.
    pose proof (lo_le L LO) as LE. pose proof (lo_size L LO) as SZ.
    assert (H1 : phi2 (ind0 L s t (Z.of_nat (N s))) = phi1 (ind0 L s t (Z.of_nat (N s)))).
    { apply H. unfold inr. destruct (el_cases L LO s t _ EL) as [(_ & R' & _)|(_ & R' & _)]; unfold npauliZ, ndm0Z in *; lia. }
    rewrite H1. destruct (el_cases L LO s t _ EL) as [(_ & R' & I)|(_ & R' & I)]; rewrite I; auto.
    rewrite H; auto. unfold inr, imag_ind, npauliZ, ndm0Z in *. lia.
  - now rewrite !dens_not.
Qed.
Lemma dens_zero : forall phi, (forall k, inr (ly_ndm0r L) k -> phi k = 0) -> forall s t, In s SS -> In t SS -> dens phi s t = 0.
Proof.
  intros phi H s t Hs Ht. destruct (kept s t) eqn:G; [|now apply dens_not].
  pose proof (kept_el s t Hs Ht G) as EL. rewrite (dens_el _ s t _ EL), rho_mk by auto.
  pose proof (lo_le L LO) as LE. pose proof (lo_size L LO) as SZ.
  destruct (el_cases L LO s t _ EL) as [(_ & R' & I)|(_ & R' & I)]; rewrite I.
  - rewrite H; [reflexivity|]. unfold inr, npauliZ, ndm0Z in *; lia.
  - rewrite !H; [|unfold inr, imag_ind, npauliZ, ndm0Z in *; lia|unfold inr, imag_ind, npauliZ, ndm0Z in *; lia].
    destruct (cnj _ _ _ _); apply cplx_eq; cbn [re im]; try reflexivity. change (- (0 : K) = 0). ring.
Qed.
Lemma zero_dens : forall phi, (forall s t, In s SS -> In t SS -> dens phi s t = 0) -> forall k, inr (ly_ndm0r L) k -> phi k = 0.
Proof.
  intros phi H k (Hk0 & Hk1). pose proof (lo_le L LO) as LE. pose proof (lo_size L LO) as SZ.
  assert (X : forall s t c, el L s t c -> rho K L phi s t c = 0).
  { intros s t c EL. rewrite <- (dens_el _ _ _ _ EL). destruct (el_kept s t c EL) as (Hs & Ht & _). now apply H. }
  destruct (Z.lt_ge_cases k (npauliZ L)) as [P|P]; [|destruct (Z.lt_ge_cases k (ndm0Z L)) as [Q|Q]].
  - destruct (lo_surj L LO (Z.to_nat k)) as (b & c & Hc & Hb & I); [unfold npauliZ in *; lia|]. rewrite Z2Nat.id in I by auto.
    assert (EL : el L b b c) by (repeat split; auto; lia). specialize (X _ _ _ EL). rewrite rho_mk in X by auto.
    apply (f_equal (@re K)) in X. cbn [re] in X. now rewrite I in X.
  - destruct (lo_surj2 L LO (Z.to_nat k)) as (b & bp & c & Hc & Hb & Hbp & Hne & I & _); [unfold npauliZ, ndm0Z in *; lia|]. rewrite Z2Nat.id in I by auto.
    assert (EL : el L b bp c) by (repeat split; auto; lia). specialize (X _ _ _ EL). rewrite rho_mk in X by auto.
    apply (f_equal (@re K)) in X. cbn [re] in X. now rewrite I in X.
  - destruct (lo_surj2 L LO (Z.to_nat (k - ndm0Z L + npauliZ L))) as (b & bp & c & Hc & Hb & Hbp & Hne & I & Q'); [unfold npauliZ, ndm0Z in *; lia|].
    rewrite Z2Nat.id in I by (unfold npauliZ, ndm0Z in *; lia).
    assert (EL : el L b bp c) by (repeat split; auto; unfold npauliZ, ndm0Z in *; lia). specialize (X _ _ _ EL). rewrite rho_mk in X by auto.
    destruct (el_cases L LO b bp c EL) as [(Y & _)|(_ & R' & IM)]; [contradiction|]. rewrite IM in X.
    destruct (lo_off L LO b bp c Hc Hb Hbp Hne) as (_ & W). destruct EL as (_ & _ & _ & A4). destruct (W A4) as (_ & _ & W2 & _). rewrite W2, Q' in X.
    apply (f_equal (@im K)) in X. cbn [im] in X. unfold imag_ind in X. rewrite I in X.
    replace (ndm0Z L + (k - ndm0Z L + npauliZ L) - npauliZ L)%Z with k in X by lia. exact X.
Qed.
Lemma related_zero : forall phi phi', related phi phi' -> (forall k, inr (ly_ndm0r L) k -> phi k = 0) -> forall k, inr (ly_ndm0r L) k -> phi' k = 0.
Proof.
  intros phi phi' R H. apply zero_dens. intros s t Hs Ht. rewrite R by auto. unfold rot. apply (rsum_0 C). intros u Hu. apply (rsum_0 C). intros v Hv.
  rewrite (dens_zero phi H) by auto. ring.
Qed.
(** the trace *)
Lemma related_norm : forall phi phi', related phi phi' -> phi0_norm K L phi' = phi0_norm K L phi.
Proof.
  assert (X : forall phi, phi0_norm K L phi = re (rsum (fun s => 1 * dens phi s s) SS : C)).
  { intros phi. unfold phi0_norm. rewrite rsum_re. unfold cons_states. rewrite rsum_flat_map. apply (rsum_ext K). intros c Hc. apply charges_in in Hc.
    apply (rsum_ext K). intros b Hb. rewrite (dens_at K L N CH phi b b c) by (auto; lia). rewrite (rho_diag_real K L LO) by (auto; lia).
    rewrite re_mul. simpl. ring. }
  intros phi phi' R. rewrite !X. f_equal. rewrite (rsum_ext C _ _ (fun s => 1 * rot K SS U (dens phi) s s)) by (intros s Hs; now rewrite R).
  apply (rot_trace K SS N E U ss_nodup UN ME). reflexivity.
Qed.
(** weighted sums of the contribution of one lead *)
Lemma weighted_rot : forall (w : nat -> K) (X X' : Op K), (forall s s', N s = N s' -> E s = E s' -> w s = w s') -> same K SS X' (rot K SS U X) ->
  rsum (fun s => w s * re (X' s s)) SS = rsum (fun s => w s * re (X s s)) SS.
Proof.
  intros w X X' Hw H. assert (G : forall Y : Op K, rsum (fun s => w s * re (Y s s)) SS = re (rsum (fun s => ofR (w s) * Y s s) SS)).
  { intros Y. rewrite rsum_re. apply (rsum_ext K). intros s _. simpl. ring. }
  rewrite !G. f_equal. rewrite (rsum_ext C _ _ (fun s => ofR (w s) * rot K SS U X s s)) by (intros s Hs; now rewrite H).
  apply (rot_trace K SS N E U ss_nodup UN ME). intros s s' A B. now rewrite (Hw s s').
Qed.

(** *** the kernel *)
Lemma related_kernel : forall nl kern kern' (lead lead' : Op K -> nat -> Op K),
  (forall phi b bp c, el L b bp c -> rho K L (act (ly_ndm0r L) kern phi) b bp c = master K SS E nl lead (dens phi) b bp) ->
  (forall phi b bp c, el L b bp c -> rho K L (act (ly_ndm0r L) kern' phi) b bp c = master K SS E nl lead' (dens phi) b bp) ->
  (forall r r', same K SS r' (rot K SS U r) -> forall l, (l < nl)%nat -> same K SS (lead' r' l) (rot K SS U (lead r l))) ->
  forall phi phi', related phi phi' -> related (act (ly_ndm0r L) kern phi) (act (ly_ndm0r L) kern' phi').
Proof.
  intros nl kern kern' lead lead' A A' B phi phi' R s t Hs Ht. destruct (kept s t) eqn:G.
  - pose proof (kept_el s t Hs Ht G) as EL. rewrite (dens_el _ s t _ EL), A' by auto.
    rewrite (master_rot K SS N E U ss_nodup UN ME nl (dens phi) (dens phi') R lead lead' (B _ _ R)) by auto.
    apply rot_kept; auto. intros u v Hu Hv Guv. pose proof (kept_el u v Hu Hv Guv) as EL'. now rewrite (dens_el _ u v _ EL'), A.
  - rewrite dens_not by auto. symmetry. now apply rot_not.
Qed.
End Generic.
