(** Riemann integrals and principal values as relations (specification side). *)
From Coq Require Import Reals Lra Lia List.
Open Scope R_scope.

Definition is_int (f : R -> R) (a b v : R) : Prop := exists pr : Riemann_integrable f a b, RiemannInt pr = v.

(** [is_pv g a alpha b v]: v is the (principal value of the) integral of g(x)/(x - alpha) over [a, b]; for alpha inside
    the interval the limit of the integral without (alpha - e, alpha + e) *)
Definition is_pv (g : R -> R) (a alpha b v : R) : Prop :=
  ((alpha < a \/ b < alpha) /\ is_int (fun x => g x / (x - alpha)) a b v) \/
  (a < alpha < b /\ forall eta, 0 < eta -> exists d, 0 < d /\ forall e, 0 < e < d ->
     exists v1 v2, is_int (fun x => g x / (x - alpha)) a (alpha - e) v1 /\ is_int (fun x => g x / (x - alpha)) (alpha + e) b v2 /\
       Rabs (v1 + v2 - v) < eta).

Lemma is_int_unique : forall f a b v w, is_int f a b v -> is_int f a b w -> v = w.
Proof. intros f a b v w (p & <-) (q & <-). apply RiemannInt_P5. Qed.
Lemma is_int_ext : forall f g a b v, a <= b -> (forall x, a <= x <= b -> f x = g x) -> is_int f a b v -> is_int g a b v.
Proof.
  intros f g a b v Hab E (p & <-). assert (q : Riemann_integrable g a b).
  { apply Riemann_integrable_ext with f; auto. intros x. rewrite Rmin_left, Rmax_right by auto. apply E. }
  exists q. apply RiemannInt_P18; auto. intros x Hx. symmetry. apply E. lra.
Qed.
Lemma is_int_lin : forall f g a b l v w, is_int f a b v -> is_int g a b w -> is_int (fun x => f x + l * g x) a b (v + l * w).
Proof. intros f g a b l v w (p & <-) (q & <-). exists (RiemannInt_P10 l p q). apply RiemannInt_P13. Qed.
Lemma is_int_chasles : forall f a b c v w, is_int f a b v -> is_int f b c w -> is_int f a c (v + w).
Proof. intros f a b c v w (p & <-) (q & <-). exists (RiemannInt_P24 p q). symmetry. apply RiemannInt_P26. Qed.
Lemma is_int_bound : forall f a b v l u, a <= b -> is_int f a b v -> (forall x, a < x < b -> l <= f x <= u) -> l * (b - a) <= v <= u * (b - a).
Proof. intros f a b v l u Hab (p & <-) H. apply RiemannInt_const_bound; auto. Qed.
Lemma is_int_le : forall f g a b v w, a <= b -> is_int f a b v -> is_int g a b w -> (forall x, a < x < b -> f x <= g x) -> v <= w.
Proof. intros f g a b v w Hab (p & <-) (q & <-) H. apply RiemannInt_P19; auto. Qed.
Lemma is_int_sub : forall f a b c d v, a <= c -> c <= d -> d <= b -> is_int f a b v -> exists w, is_int f c d w.
Proof.
  intros f a b c d v H1 H2 H3 (p & _). assert (q : Riemann_integrable f a d) by (apply RiemannInt_P22 with b; auto; lra).
  assert (r : Riemann_integrable f c d) by (apply RiemannInt_P23 with a; auto; lra). exists (RiemannInt r), r. reflexivity.
Qed.
(** the fundamental theorem *)
Lemma is_int_prim : forall (G g : R -> R) a b, a <= b -> (forall x, a <= x <= b -> derivable_pt_lim G x (g x)) ->
  (forall x, a <= x <= b -> continuity_pt g x) -> is_int g a b (G b - G a).
Proof.
  intros G g a b Hab HD HC.
  assert (A1 := RiemannInt_P29 Hab HC). set (P := primitive Hab (FTC_P1 Hab HC)) in *.
  assert (A2 : antiderivative g G a b).
  { split; auto. intros x Hx. exists (exist _ (g x) (HD x Hx) : derivable_pt G x). reflexivity. }
  destruct (antiderivative_Ucte g P G a b A1 A2) as (c & Hc).
  exists (FTC_P1 Hab HC Hab (Rle_refl b)).
  assert (E1 : P b = RiemannInt (FTC_P1 Hab HC Hab (Rle_refl b))).
  { unfold P, primitive. destruct (Rle_dec a b) as [r|r]; [|exfalso; lra]. destruct (Rle_dec b b) as [r0|r0]; [|exfalso; lra]. apply RiemannInt_P5. }
  assert (E2 : P a = 0).
  { unfold P, primitive. destruct (Rle_dec a a) as [r|r]; [|exfalso; lra]. destruct (Rle_dec a b) as [r0|r0]; [|exfalso; lra]. apply RiemannInt_P9. }
  rewrite <- E1. rewrite (Hc b) by lra. rewrite (Hc a) in E2 by lra. lra.
Qed.
Lemma is_int_cont : forall g a b, a <= b -> (forall x, a <= x <= b -> continuity_pt g x) -> exists v, is_int g a b v.
Proof. intros g a b Hab HC. exists (RiemannInt (continuity_implies_RiemannInt Hab HC)). eexists. reflexivity. Qed.
Lemma is_int_const : forall c a b, is_int (fun _ => c) a b (c * (b - a)).
Proof. intros c a b. exists (RiemannInt_P14 a b c). apply RiemannInt_P15. Qed.
Lemma is_int_point : forall f a, is_int f a a 0.
Proof. intros f a. exists (RiemannInt_P7 f a). apply RiemannInt_P9. Qed.
(** a function that vanishes behind the first point *)
Lemma is_int_first : forall f a b, a < b -> (forall x, a < x <= b -> f x = 0) -> is_int f a b 0.
Proof.
  intros f a b Hab H.
  assert (SF : IsStepFun f a b).
  { exists (a :: b :: nil). exists (0 :: nil). unfold adapted_couple. rewrite Rmin_left, Rmax_right by lra. split.
    - intros i Hi. destruct i as [|[|i]]; simpl in *; try lia. lra.
    - split; auto. split; auto. split; auto. intros i Hi. destruct i as [|i]; simpl in Hi; [|lia]. intros x Hx. simpl in *. unfold open_interval in Hx. apply H. lra. }
  assert (pr : Riemann_integrable f a b).
  { intros eps. exists (mkStepFun SF), (mkStepFun (StepFun_P4 a b 0)). split.
    - intros t _. cbn. unfold fct_cte. rewrite Rminus_diag_eq, Rabs_R0; auto. lra.
    - rewrite StepFun_P18, Rmult_0_l, Rabs_R0. apply (cond_pos eps). }
  exists pr. rewrite <- (Rmult_0_l (b - a)). rewrite <- (RiemannInt_P15 (RiemannInt_P14 a b 0)).
  apply RiemannInt_P18; [lra|]. intros x Hx. unfold fct_cte. apply H. lra.
Qed.

(** ** principal values *)
Lemma pv_lin : forall f g a al b l v w, a < b -> is_pv f a al b v -> is_pv g a al b w -> is_pv (fun x => f x + l * g x) a al b (v + l * w).
Proof.
  intros f g a al b l v w Hab [(O & F)|(I & F)] [(O' & G)|(I' & G)]; try lra.
  - left. split; auto. apply is_int_ext with (fun x => f x / (x - al) + l * (g x / (x - al))); [lra|intros x Hx; field; lra|]. now apply is_int_lin.
  - right. split; auto. intros eta He. destruct (F (eta / 2)) as (d & Hd & F'); [lra|]. assert (P : 0 < eta / (2 * (Rabs l + 1))).
    { apply Rdiv_lt_0_compat; auto. pose proof (Rabs_pos l). lra. }
    destruct (G _ P) as (d' & Hd' & G'). exists (Rmin (Rmin d d') (Rmin (al - a) (b - al))). split; [repeat apply Rmin_glb_lt; lra|].
    intros e He'. assert (Q : e < d /\ e < d' /\ e < al - a /\ e < b - al).
    { destruct He' as [_ He']. pose proof (Rmin_l (Rmin d d') (Rmin (al - a) (b - al))). pose proof (Rmin_r (Rmin d d') (Rmin (al - a) (b - al))).
      pose proof (Rmin_l d d'). pose proof (Rmin_r d d'). pose proof (Rmin_l (al - a) (b - al)). pose proof (Rmin_r (al - a) (b - al)). lra. }
    destruct (F' e) as (v1 & v2 & A1 & A2 & A3); [lra|]. destruct (G' e) as (w1 & w2 & B1 & B2 & B3); [lra|].
    exists (v1 + l * w1), (v2 + l * w2). split; [|split].
    + apply is_int_ext with (fun x => f x / (x - al) + l * (g x / (x - al))); [lra|intros x Hx; field; lra|]. now apply is_int_lin.
    + apply is_int_ext with (fun x => f x / (x - al) + l * (g x / (x - al))); [lra|intros x Hx; field; lra|]. now apply is_int_lin.
    + replace (v1 + l * w1 + (v2 + l * w2) - (v + l * w)) with ((v1 + v2 - v) + l * (w1 + w2 - w)) by ring.
      eapply Rle_lt_trans; [apply Rabs_triang|]. rewrite Rabs_mult. pose proof (Rabs_pos l) as PL. pose proof (Rabs_pos (w1 + w2 - w)) as PW.
      assert (X : Rabs l * Rabs (w1 + w2 - w) <= eta / 2); [|lra].
      apply Rle_trans with (Rabs l * (eta / (2 * (Rabs l + 1)))); [apply Rmult_le_compat_l; lra|].
      apply Rmult_le_reg_r with (2 * (Rabs l + 1)); [lra|]. field_simplify; [|lra]. nra.
Qed.
Lemma pv_ext : forall f g a al b v, a < b -> (forall x, a <= x <= b -> x <> al -> f x = g x) -> is_pv f a al b v -> is_pv g a al b v.
Proof.
  intros f g a al b v Hab E [(O & F)|(I & F)].
  - left. split; auto. apply is_int_ext with (fun x => f x / (x - al)); [lra| |auto]. intros x Hx. rewrite E; auto. lra.
  - right. split; auto. intros eta He. destruct (F eta He) as (d & Hd & F'). exists (Rmin d (Rmin (al - a) (b - al))). split; [repeat apply Rmin_glb_lt; lra|].
    intros e He'. assert (Q : e < d /\ e < al - a /\ e < b - al).
    { pose proof (Rmin_l d (Rmin (al - a) (b - al))). pose proof (Rmin_r d (Rmin (al - a) (b - al))). pose proof (Rmin_l (al - a) (b - al)). pose proof (Rmin_r (al - a) (b - al)). lra. }
    destruct (F' e) as (v1 & v2 & A1 & A2 & A3); [lra|]. exists v1, v2. split; [|split; auto].
    + apply is_int_ext with (fun x => f x / (x - al)); [lra| |auto]. intros x Hx. rewrite E; auto; lra.
    + apply is_int_ext with (fun x => f x / (x - al)); [lra| |auto]. intros x Hx. rewrite E; auto; lra.
Qed.
(** without a pole the principal value is the integral *)
Lemma pv_regular : forall h a al b v M, a < b -> al <> a -> al <> b -> is_int h a b v -> (forall x, a <= x <= b -> Rabs (h x) <= M) ->
  is_pv (fun x => (x - al) * h x) a al b v.
Proof.
  intros h a al b v M Hab N1 N2 H HM. destruct (Rlt_dec al a) as [L|L]; [|destruct (Rlt_dec b al) as [L'|L']].
  - left. split; auto. apply is_int_ext with h; [lra| |auto]. intros x Hx. field. lra.
  - left. split; auto. apply is_int_ext with h; [lra| |auto]. intros x Hx. field. lra.
  - right. split; [lra|]. intros eta He. assert (PM : 0 <= M) by (apply Rle_trans with (Rabs (h a)); [apply Rabs_pos|apply HM; lra]).
    set (d := Rmin (eta / (2 * (M + 1))) (Rmin (al - a) (b - al))).
    assert (D1 : 0 < d) by (unfold d; repeat apply Rmin_glb_lt; try lra; apply Rdiv_lt_0_compat; lra).
    exists d. split; auto. intros e He'. assert (Q : e < eta / (2 * (M + 1)) /\ e < al - a /\ e < b - al).
    { unfold d in He'. pose proof (Rmin_l (eta / (2 * (M + 1))) (Rmin (al - a) (b - al))). pose proof (Rmin_r (eta / (2 * (M + 1))) (Rmin (al - a) (b - al))).
      pose proof (Rmin_l (al - a) (b - al)). pose proof (Rmin_r (al - a) (b - al)). lra. }
    destruct (is_int_sub h a b a (al - e) v) as (v1 & A1); try lra; auto. destruct (is_int_sub h a b (al - e) (al + e) v) as (v3 & A3); try lra; auto.
    destruct (is_int_sub h a b (al + e) b v) as (v2 & A2); try lra; auto. exists v1, v2. split; [|split].
    + apply is_int_ext with h; [lra| |auto]. intros x Hx. field. lra.
    + apply is_int_ext with h; [lra| |auto]. intros x Hx. field. lra.
    + pose proof (is_int_chasles _ _ _ _ _ _ (is_int_chasles _ _ _ _ _ _ A1 A3) A2) as S. pose proof (is_int_unique _ _ _ _ _ S H) as E.
      assert (B : - M * (al + e - (al - e)) <= v3 <= M * (al + e - (al - e))).
      { apply (is_int_bound h); [lra|auto|]. intros x Hx. assert (X : Rabs (h x) <= M) by (apply HM; lra). unfold Rabs in X. destruct (Rcase_abs (h x)); lra. }
      replace (v1 + v2 - v) with (- v3) by lra. rewrite Rabs_Ropp. apply Rle_lt_trans with (M * (2 * e)); [apply Rabs_le; lra|].
      assert (X : e * (2 * (M + 1)) < eta).
      { destruct Q as [Q _]. apply Rmult_lt_compat_r with (r := 2 * (M + 1)) in Q; [|lra]. unfold Rdiv in Q. rewrite Rmult_assoc, Rinv_l in Q; lra. }
      nra.
Qed.
(** the integral of the pole itself *)
Lemma ln_abs_deriv : forall al x, x <> al -> derivable_pt_lim (fun y => ln (Rabs (y - al))) x (1 / (x - al)).
Proof.
  intros al x N. destruct (Rlt_dec al x) as [L|L].
  - assert (D : derivable_pt_lim (fun y => ln (y - al)) x (1 / (x - al))).
    { replace (1 / (x - al)) with (/ (x - al) * (1 - 0)) by (field; lra).
      apply (derivable_pt_lim_comp (fun y => y - al) ln); [|apply derivable_pt_lim_ln; lra].
      apply derivable_pt_lim_minus; [apply derivable_pt_lim_id|apply derivable_pt_lim_const]. }
    intros eps He. destruct (D eps He) as (d & Hd). assert (P : 0 < Rmin d (x - al)) by (apply Rmin_glb_lt; [apply (cond_pos d)|lra]).
    exists (mkposreal _ P). intros h Hh Hs. cbn in Hs. specialize (Hd h Hh).
    assert (Rabs h < d) by (eapply Rlt_le_trans; [exact Hs|apply Rmin_l]). assert (Rabs h < x - al) by (eapply Rlt_le_trans; [exact Hs|apply Rmin_r]).
    assert (- (x - al) < h) by (apply Rabs_def2 in H0; lra). rewrite (Rabs_pos_eq (x + h - al)), (Rabs_pos_eq (x - al)) by lra. auto.
  - assert (D : derivable_pt_lim (fun y => ln (al - y)) x (1 / (x - al))).
    { replace (1 / (x - al)) with (/ (al - x) * (0 - 1)) by (field; lra).
      apply (derivable_pt_lim_comp (fun y => al - y) ln); [|apply derivable_pt_lim_ln; lra].
      apply derivable_pt_lim_minus; [apply derivable_pt_lim_const|apply derivable_pt_lim_id]. }
    intros eps He. destruct (D eps He) as (d & Hd). assert (P : 0 < Rmin d (al - x)) by (apply Rmin_glb_lt; [apply (cond_pos d)|lra]).
    exists (mkposreal _ P). intros h Hh Hs. cbn in Hs. specialize (Hd h Hh).
    assert (Rabs h < d) by (eapply Rlt_le_trans; [exact Hs|apply Rmin_l]). assert (Rabs h < al - x) by (eapply Rlt_le_trans; [exact Hs|apply Rmin_r]).
    assert (h < al - x) by (apply Rabs_def2 in H0; lra). rewrite (Rabs_left1 (x + h - al)), (Rabs_left1 (x - al)) by lra.
    replace (- (x + h - al)) with (al - (x + h)) by ring. replace (- (x - al)) with (al - x) by ring. auto.
Qed.
Lemma inv_cont : forall al x, x <> al -> continuity_pt (fun y => 1 / (y - al)) x.
Proof.
  intros al x N. apply (continuity_pt_div (fct_cte 1) (fun y => y - al)); [apply continuity_pt_const; intros ? ?; reflexivity| |lra].
  apply (continuity_pt_minus id (fct_cte al)); [apply derivable_continuous_pt, derivable_pt_id|apply continuity_pt_const; intros ? ?; reflexivity].
Qed.
Lemma int_pole : forall al a b, a <= b -> al < a \/ b < al -> is_int (fun x => 1 / (x - al)) a b (ln (Rabs (b - al)) - ln (Rabs (a - al))).
Proof.
  intros al a b Hab O. apply (is_int_prim (fun y => ln (Rabs (y - al)))); auto; intros x Hx; [apply ln_abs_deriv|apply inv_cont]; lra.
Qed.
Lemma pv_pole : forall a al b, a < b -> al <> a -> al <> b -> is_pv (fun _ => 1) a al b (ln (Rabs (b - al)) - ln (Rabs (a - al))).
Proof.
  intros a al b Hab N1 N2. destruct (Rlt_dec al a) as [L|L]; [|destruct (Rlt_dec b al) as [L'|L']].
  - left. split; auto. apply int_pole; auto. lra.
  - left. split; auto. apply int_pole; auto. lra.
  - right. split; [lra|]. intros eta He. exists (Rmin (al - a) (b - al)). split; [apply Rmin_glb_lt; lra|]. intros e He'.
    pose proof (Rmin_l (al - a) (b - al)). pose proof (Rmin_r (al - a) (b - al)).
    exists (ln (Rabs (al - e - al)) - ln (Rabs (a - al))), (ln (Rabs (b - al)) - ln (Rabs (al + e - al))). split; [apply int_pole; lra|]. split; [apply int_pole; lra|].
    replace (al - e - al) with (- e) by ring. replace (al + e - al) with e by ring. rewrite Rabs_Ropp.
    replace (_ + _ - _) with 0 by ring. rewrite Rabs_R0. auto.
Qed.
