(** Row sums and weighted row sums of the kernels with coherences. *)
From Coq Require Import String List Arith Lia ZArith Bool Permutation Ring.
From Verif Require Import Base SsqProofs Qn DMIndex DMIndexProofs CRing Layout Kernel KernelProofs PauliProofs.
Import ListNotations.
Open Scope nat_scope.
Local Notation length := List.length.

(** ** Reordering sums *)
Section Reorder.
Variable K : CRing.
Local Open Scope rng_scope.
Add Ring KrR : (rth K).

Lemma rsum_prod : forall A B (f : A * B -> K) l l',
  rsum f (list_prod l l') = rsum (fun x => rsum (fun y => f (x, y)) l') l.
Proof. induction l; intros; cbn [list_prod rsum]; auto. now rewrite rsum_app, rsum_map, IHl. Qed.

Lemma sum_rot3 : forall A B D (f : A -> B -> D -> K) l1 l2 l3,
  rsum (fun x => rsum (fun y => rsum (fun z => f x y z) l3) l2) l1 =
  rsum (fun y => rsum (fun z => rsum (fun x => f x y z) l1) l3) l2.
Proof.
  intros. rewrite rsum_swap. apply rsum_ext. intros y _. apply rsum_swap.
Qed.

Lemma sum_front4 : forall A B D F (f : A -> B -> D -> F -> K) l1 l2 l3 l4,
  rsum (fun x => rsum (fun y => rsum (fun z => rsum (fun w => f x y z w) l4) l3) l2) l1 =
  rsum (fun w => rsum (fun x => rsum (fun y => rsum (fun z => f x y z w) l3) l2) l1) l4.
Proof.
  intros. symmetry. etransitivity; [apply rsum_swap|]. apply rsum_ext. intros x _.
  etransitivity; [apply rsum_swap|]. apply rsum_ext. intros y _. apply rsum_swap.
Qed.
End Reorder.

Section Links.
Variable K : CRing.
Local Notation C := (Cx K).
Local Open Scope rng_scope.
Add Ring KrL : (rth K).
Add Ring CrL : (rth (Cx K)).

(** what one transition X -> Y adds to the elements of Y and removes from those of X *)
Definition link_in (LS Y X : list nat) (P B : nat -> nat -> nat -> nat -> C) (r : nat -> nat -> C) : C :=
  rsum (fun b => rsum (fun a => rsum (fun ap =>
    rsum (fun l => P l b a ap * (conj (B l b ap a) - B l b a ap)) LS * r a ap) X) X) Y.
Definition link_out (LS Y X : list nat) (P B : nat -> nat -> nat -> nat -> C) (r : nat -> nat -> C) : C :=
  rsum (fun a => rsum (fun ap =>
    rsum (fun b => rsum (fun l => P l b ap a * B l b ap a) LS) Y * r ap a -
    rsum (fun b => rsum (fun l => P l b a ap * conj (B l b ap a)) LS) Y * r a ap) X) X.

Lemma link_cancel : forall LS Y X P B r, link_in LS Y X P B r + link_out LS Y X P B r = 0.
Proof.
  intros. unfold link_in, link_out.
  rewrite (rsum_ext C _ _ (fun a => rsum (fun ap => rsum (fun b => rsum (fun l => P l b ap a * B l b ap a) LS) Y * r ap a) X -
     rsum (fun ap => rsum (fun b => rsum (fun l => P l b a ap * conj (B l b ap a)) LS) Y * r a ap) X) X)
    by (intros; apply rsum_minus).
  rewrite rsum_minus.
  rewrite (rsum_swap C _ _ (fun a ap => rsum (fun b => rsum (fun l => P l b ap a * B l b ap a) LS) Y * r ap a) X X).
  rewrite sum_rot3. rewrite <- rsum_minus, <- rsum_plus. apply rsum_0. intros a _.
  rewrite <- rsum_minus, <- rsum_plus. apply rsum_0. intros ap _.
  rewrite rsum_mul_r.
  transitivity ((rsum (fun b => rsum (fun l => P l b a ap * (conj (B l b ap a) - B l b a ap)) LS) Y +
     rsum (fun b => rsum (fun l => P l b a ap * B l b a ap) LS) Y -
     rsum (fun b => rsum (fun l => P l b a ap * conj (B l b ap a)) LS) Y) * r a ap); [ring|].
  rewrite <- rsum_plus, <- rsum_minus.
  rewrite rsum_0; [ring|]. intros b _. rewrite <- rsum_plus, <- rsum_minus. apply rsum_0. intros l _. ring.
Qed.

(** Hermitian data: the change is minus twice an imaginary part *)
Lemma link_imag : forall LS Y X P B r,
  (forall l b a ap, In b Y -> In a X -> In ap X -> conj (P l b a ap) = P l b ap a) ->
  (forall a ap, In a X -> In ap X -> conj (r a ap) = r ap a) ->
  im (link_in LS Y X P B r) =
  m2im K (rsum (fun l => rsum (fun b => rsum (fun a => rsum (fun ap => P l b a ap * B l b a ap * r a ap) X) X) Y) LS).
Proof.
  intros LS Y X P B r HP HR. unfold link_in, m2im.
  assert (E1 : rsum (fun b => rsum (fun a => rsum (fun ap =>
      rsum (fun l => P l b a ap * (conj (B l b ap a) - B l b a ap)) LS * r a ap) X) X) Y =
    conj (rsum (fun l => rsum (fun b => rsum (fun a => rsum (fun ap => P l b a ap * B l b a ap * r a ap) X) X) Y) LS) -
    rsum (fun l => rsum (fun b => rsum (fun a => rsum (fun ap => P l b a ap * B l b a ap * r a ap) X) X) Y) LS).
  { rewrite (rsum_ext C _ _ (fun b => rsum (fun a => rsum (fun ap => rsum (fun l =>
       P l b a ap * (conj (B l b ap a) - B l b a ap) * r a ap) LS) X) X) Y).
    2:{ intros b _. apply rsum_ext. intros a _. apply rsum_ext. intros ap _. now rewrite rsum_mul_r. }
    rewrite sum_front4. rewrite rsum_conj. rewrite <- rsum_minus. apply rsum_ext. intros l _.
    rewrite rsum_conj. rewrite <- rsum_minus. apply rsum_ext. intros b Hb.
    rewrite rsum_conj.
    rewrite (rsum_ext C _ (fun a => conj (rsum (fun ap => P l b a ap * B l b a ap * r a ap) X))
       (fun a => rsum (fun ap => P l b ap a * conj (B l b a ap) * r ap a) X) X).
    2:{ intros a Ha. rewrite rsum_conj. apply rsum_ext. intros ap Hap. rewrite !conj_mul, HP, HR by auto. reflexivity. }
    rewrite (rsum_swap C _ _ (fun a ap => P l b ap a * conj (B l b a ap) * r ap a)).
    rewrite <- rsum_minus. apply rsum_ext. intros a _. rewrite <- rsum_minus. apply rsum_ext. intros ap _. ring. }
  rewrite E1. set (z := rsum _ LS). change (im (conj z - z)) with (- im z - im z). ring.
Qed.
End Links.

Section Coh.
Variable K : CRing.
Local Notation C := (Cx K).
Local Open Scope rng_scope.
Add Ring KrC : (rth K).
Add Ring CrC : (rth (Cx K)).
Variable L : Lay.
Hypothesis LO : layout L.
Variable phi : Z -> K.
Local Notation rho := (rho K L phi).
Local Notation gval := (gval K L phi).
Local Notation act := (act K).

Lemma not_included : forall a ap ac, is_included L a ap ac = false -> rho a ap ac = 0.
Proof.
  intros a ap ac H. apply rho_not. unfold is_included in H. apply negb_false_iff, Z.eqb_eq in H. auto.
Qed.
Lemma included : forall a ap ac, is_included L a ap ac = true -> ind0 L a ap ac <> (-1)%Z.
Proof. intros a ap ac H. unfold is_included in H. apply negb_true_iff, Z.eqb_neq in H. auto. Qed.

(** an excluded element reads as zero, so the test can be dropped *)
Lemma gate1 : forall b bp c a ap ac (f : C),
  rsum gval (if is_included L a ap ac then [CElem K f b bp c a ap ac] else []) = f * rho a ap ac.
Proof.
  intros. destruct (is_included L a ap ac) eqn:E.
  - cbn [rsum]. unfold KernelProofs.gval. ring.
  - rewrite not_included by auto. cbn [rsum]. ring.
Qed.

(** coherences between states of one charge block read back as conjugates *)
Lemma rho_herm : forall b bp c, (0 <= c)%Z -> In b (states L c) -> In bp (states L c) ->
  conj (rho b bp c) = rho bp b c.
Proof.
  intros b bp c Hc Hb Hbp. destruct (Nat.eq_dec b bp) as [<-|Hne].
  - destruct (lo_diag L LO b c Hc Hb) as (A & _).
    assert (EL : el L b b c) by (repeat split; auto; lia).
    destruct (rho_el K L phi b b c EL) as [R1 R2].
    destruct (el_cases L LO b b c EL) as [(_ & _ & HI)|(X & _)]; [|congruence]. rewrite HI in R2.
    apply cplx_eq; cbn [re im conj]; auto. rewrite R2. ring.
  - destruct (lo_off L LO b bp c Hc Hb Hbp Hne) as (E & H).
    destruct (Z.eq_dec (ind0 L b bp c) (-1)) as [X|X].
    + rewrite !rho_not by congruence. apply conj_0.
    + destruct (H X) as (_ & _ & C1 & C2).
      assert (EL : el L b bp c) by (repeat split; auto).
      assert (EL' : el L bp b c) by (repeat split; auto; congruence).
      destruct (rho_el K L phi _ _ _ EL) as [R1 R2]. destruct (rho_el K L phi _ _ _ EL') as [R1' R2'].
      apply cplx_eq; cbn [re im conj].
      * rewrite R1, R1'. now rewrite E.
      * rewrite R2, R2', E, C1, C2. destruct (has_imag _ _); [|ring]. destruct (uniq L b bp c); simpl; ring.
Qed.

Lemma rho_diag_real : forall b c, (0 <= c)%Z -> In b (states L c) ->
  rho b b c = ofR (phi (ind0 L b b c)).
Proof.
  intros b c Hc Hb. destruct (lo_diag L LO b c Hc Hb) as (A & _).
  assert (EL : el L b b c) by (repeat split; auto; lia).
  destruct (rho_el K L phi b b c EL) as [R1 R2].
  destruct (el_cases L LO b b c EL) as [(_ & _ & HI)|(X & _)]; [|congruence]. rewrite HI in R2.
  apply cplx_eq; auto.
Qed.

(** *** All kernels: the diagonal rows *)
Section Diag.
Variables (E : nat -> K) (cpl : nat -> nat -> Z -> list (call K)).
Hypothesis CPL : forall b bp c x, el L b bp c -> In x (cpl b bp c) -> call_ok K L b bp c x /\
  (match x with CEnergy _ _ _ _ _ => False | _ => True end).
Local Notation kern := (kern_of K L (generate_kern K L E cpl)).

Lemma diag_row : forall b c, (0 <= c)%Z -> In b (states L c) ->
  act (ly_ndm0r L) kern phi (ind0 L b b c) = im (rsum gval (cpl b b c)).
Proof.
  intros b c Hc Hb. destruct (lo_diag L LO b c Hc Hb) as (A & U & _).
  assert (EL : el L b b c) by (repeat split; auto; lia).
  destruct (kernel_rows K L LO phi E cpl CPL b b c EL U) as [-> _].
  unfold G. rewrite im_add, im_mul. cbn [re im ofR].
  rewrite rho_diag_real by auto. cbn [im ofR]. ring.
Qed.

Lemma diag_rows_weighted : forall w : nat -> K,
  rsum (fun c => rsum (fun b => w b * act (ly_ndm0r L) kern phi (ind0 L b b c)) (states L c)) (charges L) =
  im (rsum (fun c => rsum (fun b => ofR (w b) * rsum gval (cpl b b c)) (states L c)) (charges L)).
Proof.
  intros w. rewrite rsum_im. apply rsum_ext. intros c Hc. apply charges_in in Hc.
  rewrite rsum_im. apply rsum_ext. intros b Hb. rewrite diag_row by (auto; lia).
  rewrite im_mul. cbn [re im ofR]. ring.
Qed.
End Diag.

(** weights that depend on the charge only *)
Lemma weighted_links : forall (w : Z -> C) (J : Z -> C), J (-1)%Z = 0 -> J (Z.of_nat (ly_ncharge L) - 1)%Z = 0 ->
  rsum (fun c => w c * (J (c - 1)%Z - J c)) (charges L) =
  rsum (fun q => (w (q + 1)%Z - w q) * J q) (charges1 L).
Proof.
  intros w J H1 H2.
  destruct (shift_links C L (fun q => w (q + 1)%Z * J q)) as [A _].
  { rewrite H1. ring. } { rewrite H2. ring. }
  destruct (shift_links C L (fun q => w q * J q)) as [_ B].
  { rewrite H1. ring. } { rewrite H2. ring. }
  rewrite (rsum_ext C _ _ (fun q => w (q + 1)%Z * J q - w q * J q) (charges1 L)) by (intros; ring).
  rewrite rsum_minus, <- A, <- B, <- rsum_minus. apply rsum_ext. intros c _.
  replace (c - 1 + 1)%Z with c by lia. ring.
Qed.
End Coh.
