(** The Lindblad, 1vN and Redfield kernels: diagonal rows and currents. *)
From Coq Require Import String List Arith Lia ZArith Bool Permutation Ring.
From Verif Require Import Base SsqProofs Qn DMIndex DMIndexProofs CRing Layout Kernel KernelProofs PauliProofs CohProofs.
Import ListNotations.
Open Scope nat_scope.
Local Notation length := List.length.

Section CohK.
Variable K : CRing.
Local Notation C := (Cx K).
Local Open Scope rng_scope.
Add Ring KrK : (rth K).
Add Ring CrK : (rth (Cx K)).
Variable L : Lay.
Hypothesis LO : layout L.
Variables (phi : Z -> K) (nl : nat).
Local Notation rho := (rho K L phi).
Local Notation gval := (gval K L phi).
Local Notation act := (act K).
Local Notation LS := (leads nl).

Lemma el_low : forall bc a ap, (0 <= bc)%Z -> In a (states L (bc - 1)) -> In ap (states L (bc - 1)) ->
  is_included L a ap (bc - 1) = true -> el L a ap (bc - 1).
Proof. intros bc a ap H Ha Hap I. split; [eapply low_nonneg; eauto|]. split; auto. split; auto. now apply included. Qed.
Lemma el_same : forall bc a ap, (0 <= bc)%Z -> In a (states L bc) -> In ap (states L bc) ->
  is_included L a ap bc = true -> el L a ap bc.
Proof. intros bc a ap H Ha Hap I. split; auto. split; auto. split; auto. now apply included. Qed.

Ltac in_calls :=
  repeat match goal with
  | H : In _ (_ ++ _) |- _ => apply in_app_iff in H; destruct H as [H|H]
  | H : In _ (flat_map _ _) |- _ => apply in_flat_map in H; destruct H as (? & ? & H)
  | H : In (_, _) (list_prod _ _) |- _ => apply in_prod_iff in H; destruct H
  | p : (_ * _)%type |- _ => destruct p
  | H : In _ (if ?b then _ else _) |- _ => destruct b eqn:?; [destruct H as [<-|[]]|destruct H]
  end.

Ltac coupling_ok LO' :=
  intros b bp c x EL Hx; pose proof EL as (Hc & Hb & Hbp & Hi); in_calls;
  (split; [|exact I]); cbn; (split; [reflexivity|]); (split; [reflexivity|]); (split; [reflexivity|]);
  first [apply el_low; assumption | apply el_same; first [assumption|lia]].

Lemma lindblad_ok : forall h tL b bp c x, el L b bp c -> In x (lindblad_coupling K L nl h tL b bp c) ->
  call_ok K L b bp c x /\ (match x with CEnergy _ _ _ _ _ => False | _ => True end).
Proof. intros h tL. unfold lindblad_coupling. coupling_ok LO. Qed.
Lemma vn1_ok : forall T F b bp c x, el L b bp c -> In x (vn1_coupling K L nl T F b bp c) ->
  call_ok K L b bp c x /\ (match x with CEnergy _ _ _ _ _ => False | _ => True end).
Proof. intros T F. unfold vn1_coupling. coupling_ok LO. Qed.
Lemma red_ok : forall T F b bp c x, el L b bp c -> In x (red_coupling K L nl T F b bp c) ->
  call_ok K L b bp c x /\ (match x with CEnergy _ _ _ _ _ => False | _ => True end).
Proof. intros T F. unfold red_coupling. coupling_ok LO. Qed.

(** ** Transitions between neighbouring charges *)
Section Rows.
Variables (P : nat -> nat -> nat -> nat -> C) (Bup Bdn : Z -> nat -> nat -> nat -> nat -> C).
Definition row_in (b : nat) (X : list nat) (B : nat -> nat -> nat -> nat -> C) (r : nat -> nat -> C) : C :=
  rsum (fun a => rsum (fun ap => rsum (fun l => P l b a ap * (conj (B l b ap a) - B l b a ap)) LS * r a ap) X) X.
Definition row_out1 (b : nat) (Y X : list nat) (B : nat -> nat -> nat -> nat -> C) (r : nat -> nat -> C) : C :=
  rsum (fun ap => rsum (fun y => rsum (fun l => P l y ap b * B l y ap b) LS) Y * r ap b -
                  rsum (fun y => rsum (fun l => P l y b ap * conj (B l y ap b)) LS) Y * r b ap) X.
Definition row_out2 (b : nat) (Y X : list nat) (B : nat -> nat -> nat -> nat -> C) (r : nat -> nat -> C) : C :=
  rsum (fun ap => rsum (fun y => rsum (fun l => P l y b ap * B l y b ap) LS) Y * r b ap -
                  rsum (fun y => rsum (fun l => P l y ap b * conj (B l y b ap)) LS) Y * r ap b) X.

Lemma out1_link : forall Y X B r, rsum (fun b => row_out1 b Y X B r) X = - link_in K LS Y X P B r.
Proof.
  intros. pose proof (link_cancel K LS Y X P B r) as H.
  assert (E : rsum (fun b => row_out1 b Y X B r) X = link_out K LS Y X P B r) by reflexivity.
  rewrite E. transitivity (link_in K LS Y X P B r + link_out K LS Y X P B r - link_in K LS Y X P B r); [ring|].
  rewrite H. ring.
Qed.
Lemma out2_link : forall Y X B r, rsum (fun b => row_out2 b Y X B r) X = - link_in K LS Y X P B r.
Proof.
  intros. rewrite <- out1_link. unfold row_out1, row_out2. apply rsum_swap.
Qed.

Definition J (q : Z) : C :=
  link_in K LS (states L (q + 1)) (states L q) P (Bup q) (fun a ap => rho a ap q) -
  link_in K LS (states L q) (states L (q + 1)) P (Bdn q) (fun a ap => rho a ap (q + 1)%Z).

Lemma J_low : J (-1)%Z = 0.
Proof.
  unfold J, link_in. rewrite (lo_below L LO). cbn [rsum].
  rewrite (rsum_0 C); [ring|]. reflexivity.
Qed.
Lemma J_high : J (Z.of_nat (ly_ncharge L) - 1)%Z = 0.
Proof.
  unfold J, link_in. replace (Z.of_nat (ly_ncharge L) - 1 + 1)%Z with (Z.of_nat (ly_ncharge L)) by lia.
  rewrite (lo_above L LO). cbn [rsum].
  rewrite (rsum_0 C); [ring|]. reflexivity.
Qed.

Variables (E : nat -> K) (cpl : nat -> nat -> Z -> list (call K)).
Hypothesis CPL : forall b bp c x, el L b bp c -> In x (cpl b bp c) -> call_ok K L b bp c x /\
  (match x with CEnergy _ _ _ _ _ => False | _ => True end).
Hypothesis ROWS : forall b c, (0 <= c)%Z -> In b (states L c) ->
  rsum gval (cpl b b c) =
  row_in b (states L (c - 1)) (Bup (c - 1)%Z) (fun a ap => rho a ap (c - 1)%Z) +
  row_out2 b (states L (c - 1)) (states L c) (Bdn (c - 1)%Z) (fun a ap => rho a ap c) +
  row_out1 b (states L (c + 1)) (states L c) (Bup c) (fun a ap => rho a ap c) +
  row_in b (states L (c + 1)) (Bdn c) (fun a ap => rho a ap (c + 1)%Z).

Lemma block_sum : forall c, (0 <= c)%Z -> rsum (fun b => rsum gval (cpl b b c)) (states L c) = J (c - 1)%Z - J c.
Proof.
  intros c Hc. rewrite (rsum_ext C _ _ _ _ (fun b => ROWS b c Hc)). rewrite !rsum_plus, out1_link, out2_link.
  unfold J. replace (c - 1 + 1)%Z with c by lia. unfold row_in, link_in. ring.
Qed.

Lemma coh_weighted : forall w : Z -> K,
  rsum (fun c => rsum (fun b => w c * act (ly_ndm0r L) (kern_of K L (generate_kern K L E cpl)) phi (ind0 L b b c))
                      (states L c)) (charges L) =
  im (rsum (fun q => ofR (w (q + 1)%Z - w q) * J q) (charges1 L)).
Proof.
  intros w.
  rewrite (rsum_ext K _ _ (fun c => w c * im (J (c - 1)%Z - J c)) (charges L)).
  2:{ intros c Hc. apply charges_in in Hc. rewrite rsum_mul_l. f_equal.
      rewrite <- block_sum by lia. rewrite rsum_im. apply rsum_ext. intros b Hb.
      apply (diag_row K L LO phi E cpl CPL); auto. lia. }
  pose proof (weighted_links K L (fun c => ofR (w c)) J J_low J_high) as W.
  rewrite (rsum_ext C _ _ (fun q => (ofR (w (q + 1)%Z) - ofR (w q)) * J q) (charges1 L)).
  2:{ intros q _. f_equal. apply cplx_eq; cbn [re im ofR]; [reflexivity|]. change (@r0 K = r0 - r0). ring. }
  rewrite <- W. rewrite rsum_im. apply rsum_ext. intros c _. rewrite im_mul. cbn [re im ofR]. ring.
Qed.

(** currents *)
Hypothesis HP : forall l b a ap, conj (P l b a ap) = P l b ap a.
Lemma J_imag : forall q, (0 <= q)%Z -> im (J q) =
  m2im K (rsum (fun l => rsum (fun b => rsum (fun a => rsum (fun ap =>
            P l b a ap * Bup q l b a ap * rho a ap q) (states L q)) (states L q)) (states L (q + 1))) LS) -
  m2im K (rsum (fun l => rsum (fun b => rsum (fun a => rsum (fun ap =>
            P l b a ap * Bdn q l b a ap * rho a ap (q + 1)%Z) (states L (q + 1))) (states L (q + 1))) (states L q)) LS).
Proof.
  intros q Hq. unfold J.
  rewrite <- (link_imag K LS (states L (q + 1)) (states L q) P (Bup q) (fun a ap => rho a ap q)); auto.
  2:{ intros a ap Ha Hap. apply rho_herm; auto. }
  rewrite <- (link_imag K LS (states L q) (states L (q + 1)) P (Bdn q) (fun a ap => rho a ap (q + 1)%Z)); auto.
  intros a ap Ha Hap. apply rho_herm; auto. lia.
Qed.
End Rows.

(** *** 1vN and Redfield *)
Section TF.
Variables (T : nat -> nat -> nat -> C) (F : nat -> nat -> bool -> C).
Definition P1 (l b a ap : nat) : C := T l b a * T l ap b.
Definition vn_up (q : Z) (l b a ap : nat) : C := F l (ind1 L b ap q) false.
Definition vn_dn (q : Z) (l b c cp : nat) : C := - F l (ind1 L c b q) true.
Definition rd_up (q : Z) (l b a ap : nat) : C := F l (ind1 L b a q) false.
Definition rd_dn (q : Z) (l b c cp : nat) : C := - F l (ind1 L cp b q) true.

Ltac rows_tac :=
  intros b c Hc Hb;
  rewrite !rsum_app, !rsum_flat_map, !rsum_prod; unfold row_in, row_out1, row_out2, P1, vn_up, vn_dn, rd_up, rd_dn;
  match goal with |- ?x1 + (?x2 + ?x3) = ?y1 + ?y2 + ?y3 + ?y4 =>
    let H1 := fresh in let H2 := fresh in let H3 := fresh in
    assert (H1 : x1 = y1); [|assert (H2 : x2 = y2 + y3); [|assert (H3 : x3 = y4); [|rewrite H1, H2, H3; ring]]]
  end.

Ltac in_tac :=
  apply rsum_ext; intros a Ha; apply rsum_ext; intros ap Hap; rewrite gate1; f_equal; apply rsum_ext; intros l _;
  rewrite ?conj_opp; ring.

Lemma vn1_rows : forall b c, (0 <= c)%Z -> In b (states L c) ->
  rsum gval (vn1_coupling K L nl T F b b c) =
  row_in P1 b (states L (c - 1)) (vn_up (c - 1)%Z) (fun a ap => rho a ap (c - 1)%Z) +
  row_out2 P1 b (states L (c - 1)) (states L c) (vn_dn (c - 1)%Z) (fun a ap => rho a ap c) +
  row_out1 P1 b (states L (c + 1)) (states L c) (vn_up c) (fun a ap => rho a ap c) +
  row_in P1 b (states L (c + 1)) (vn_dn c) (fun a ap => rho a ap (c + 1)%Z).
Proof.
  unfold vn1_coupling. rows_tac.
  - in_tac.
  - rewrite <- rsum_plus. apply rsum_ext. intros bpp Hbpp. rewrite rsum_app, !gate1.
    match goal with |- (?a1 + ?a2) * ?r1 + (?a3 + ?a4) * ?r2 = (?b1 * ?r2 - ?b2 * ?r1) + (?b3 * ?r1 - ?b4 * ?r2) =>
      assert (H1 : a1 = - b2); [|assert (H2 : a2 = b3); [|assert (H3 : a3 = b1); [|assert (H4 : a4 = - b4);
        [|rewrite H1, H2, H3, H4; ring]]]] end.
    + rewrite <- rsum_opp. apply rsum_ext. intros a _. rewrite <- rsum_opp. apply rsum_ext. intros l _.
      rewrite conj_opp. ring.
    + apply rsum_ext. intros a _. apply rsum_ext. intros l _. ring.
    + apply rsum_ext. intros a _. apply rsum_ext. intros l _. ring.
    + rewrite <- rsum_opp. apply rsum_ext. intros a _. rewrite <- rsum_opp. apply rsum_ext. intros l _. ring.
  - in_tac.
Qed.

Lemma red_rows : forall b c, (0 <= c)%Z -> In b (states L c) ->
  rsum gval (red_coupling K L nl T F b b c) =
  row_in P1 b (states L (c - 1)) (rd_up (c - 1)%Z) (fun a ap => rho a ap (c - 1)%Z) +
  row_out2 P1 b (states L (c - 1)) (states L c) (rd_dn (c - 1)%Z) (fun a ap => rho a ap c) +
  row_out1 P1 b (states L (c + 1)) (states L c) (rd_up c) (fun a ap => rho a ap c) +
  row_in P1 b (states L (c + 1)) (rd_dn c) (fun a ap => rho a ap (c + 1)%Z).
Proof.
  unfold red_coupling. rows_tac.
  - in_tac.
  - rewrite <- rsum_plus. apply rsum_ext. intros bpp Hbpp. rewrite rsum_app, !gate1.
    match goal with |- (?a1 + ?a2) * ?r1 + (?a3 + ?a4) * ?r2 = (?b1 * ?r2 - ?b2 * ?r1) + (?b3 * ?r1 - ?b4 * ?r2) =>
      assert (H1 : a1 = - b2); [|assert (H2 : a2 = b3); [|assert (H3 : a3 = b1); [|assert (H4 : a4 = - b4);
        [|rewrite H1, H2, H3, H4; ring]]]] end.
    + rewrite <- rsum_opp. apply rsum_ext. intros a _. rewrite <- rsum_opp. apply rsum_ext. intros l _.
      rewrite conj_opp. ring.
    + apply rsum_ext. intros a _. apply rsum_ext. intros l _. ring.
    + apply rsum_ext. intros a _. apply rsum_ext. intros l _. ring.
    + rewrite <- rsum_opp. apply rsum_ext. intros a _. rewrite <- rsum_opp. apply rsum_ext. intros l _. ring.
  - in_tac.
Qed.
End TF.
End CohK.
