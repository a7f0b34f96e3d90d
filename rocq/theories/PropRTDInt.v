(** Property C61: the branches of the RTD integrals for coinciding energies are the limits of the general formulas. *)
From Coq Require Import Reals Lra Lia.
From Verif Require Import SpecFunc RTDInt.
Local Open Scope R_scope.

(** ** Limits *)
(** [B d x]: the point [x] is allowed and closer than [d] *)
Section Lim.
Variable X : Type.
Definition tends (B : R -> X -> Prop) (f : X -> R) (l : R) : Prop := forall eps, 0 < eps -> exists d, 0 < d /\ forall x, B d x -> Rabs (f x - l) < eps.
Variable B : R -> X -> Prop.
Hypothesis mono : forall d d' x, d <= d' -> B d x -> B d' x.
Local Notation lim := (tends B).
Lemma lim_const : forall c, lim (fun _ => c) c.
Proof. intros c eps He. exists 1. split; [lra|]. intros. now rewrite Rminus_diag_eq, Rabs_R0. Qed.
Lemma lim_near : forall f g l d0, 0 < d0 -> (forall x, B d0 x -> f x = g x) -> lim f l -> lim g l.
Proof.
  intros f g l d0 H0 E H eps He. destruct (H eps He) as (d & Hd & K). exists (Rmin d d0). split; [now apply Rmin_glb_lt|]. intros x Hx.
  rewrite <- E by (apply (mono (Rmin d d0)); [apply Rmin_r|auto]). apply K. apply (mono (Rmin d d0)); [apply Rmin_l|auto].
Qed.
Lemma lim_ext : forall f g l, (forall x, f x = g x) -> lim f l -> lim g l.
Proof. intros f g l E H. apply (lim_near f g l 1); [lra|auto|auto]. Qed.
Lemma lim_eq : forall f l l', l = l' -> lim f l -> lim f l'.
Proof. intros. now subst. Qed.
Lemma lim_plus : forall f g l m, lim f l -> lim g m -> lim (fun x => f x + g x) (l + m).
Proof.
  intros f g l m Hf Hg eps He. destruct (Hf (eps / 2)) as (d & Hd & K); [lra|]. destruct (Hg (eps / 2)) as (d' & Hd' & K'); [lra|].
  exists (Rmin d d'). split; [now apply Rmin_glb_lt|]. intros x Hx.
  assert (A1 := K x (mono _ _ x (Rmin_l d d') Hx)). assert (A2 := K' x (mono _ _ x (Rmin_r d d') Hx)).
  replace (f x + g x - (l + m)) with ((f x - l) + (g x - m)) by ring. eapply Rle_lt_trans; [apply Rabs_triang|]. lra.
Qed.
Lemma lim_mult : forall f g l m, lim f l -> lim g m -> lim (fun x => f x * g x) (l * m).
Proof.
  intros f g l m Hf Hg eps He. set (M := Rabs l + Rabs m + 1). assert (PM : 0 < M) by (unfold M; assert (P := Rabs_pos l); assert (P' := Rabs_pos m); lra).
  set (e := Rmin 1 (eps / (2 * M))). assert (Pe : 0 < e). { apply Rmin_glb_lt; [lra|]. apply Rdiv_lt_0_compat; lra. }
  destruct (Hf e Pe) as (d & Hd & K). destruct (Hg e Pe) as (d' & Hd' & K').
  exists (Rmin d d'). split; [now apply Rmin_glb_lt|]. intros x Hx.
  assert (A1 := K x (mono _ _ x (Rmin_l d d') Hx)). assert (A2 := K' x (mono _ _ x (Rmin_r d d') Hx)).
  replace (f x * g x - l * m) with ((f x - l) * (g x - m) + ((f x - l) * m + l * (g x - m))) by ring.
  assert (E1 : e <= 1) by apply Rmin_l. assert (E2 : e * M <= eps / 2).
  { assert (e <= eps / (2 * M)) by apply Rmin_r. assert (X0 : eps / (2 * M) * M = eps / 2) by (field; lra). rewrite <- X0. apply Rmult_le_compat_r; lra. }
  eapply Rle_lt_trans; [apply Rabs_triang|]. eapply Rle_lt_trans; [apply Rplus_le_compat_l; apply Rabs_triang|]. rewrite !Rabs_mult.
  assert (P1 := Rabs_pos (f x - l)). assert (P2 := Rabs_pos (g x - m)). assert (P3 := Rabs_pos l). assert (P4 := Rabs_pos m).
  assert (Rabs (f x - l) * Rabs (g x - m) <= e * 1) by (apply Rmult_le_compat; lra).
  assert (Rabs (f x - l) * Rabs m <= e * Rabs m) by (apply Rmult_le_compat_r; lra).
  assert (Rabs l * Rabs (g x - m) <= Rabs l * e) by (apply Rmult_le_compat_l; lra).
  assert (e * M = e * Rabs l + e * Rabs m + e) by (unfold M; ring). lra.
Qed.
Lemma lim_scal : forall c f l, lim f l -> lim (fun x => c * f x) (c * l).
Proof. intros. apply (lim_mult (fun _ => c)); [apply lim_const|auto]. Qed.
Lemma lim_opp : forall f l, lim f l -> lim (fun x => - f x) (- l).
Proof. intros f l H. apply (lim_eq _ (-1 * l)); [ring|]. apply (lim_ext (fun x => -1 * f x)); [intros; ring|]. now apply lim_scal. Qed.
Lemma lim_minus : forall f g l m, lim f l -> lim g m -> lim (fun x => f x - g x) (l - m).
Proof. intros. apply lim_plus; [auto|now apply lim_opp]. Qed.
(** a continuous function of something that converges *)
Definition cont (h : R -> R) (c : R) : Prop := forall eps, 0 < eps -> exists d, 0 < d /\ forall t, Rabs (t - c) < d -> Rabs (h t - h c) < eps.
Lemma lim_between : forall h c f k d0, 0 < d0 -> cont h c -> (forall x, B d0 x -> exists t, f x = h t /\ Rabs (t - c) <= k x) -> lim k 0 -> lim f (h c).
Proof.
  intros h c f k d0 H0 HC HE HK eps He. destruct (HC eps He) as (d & Hd & K). destruct (HK d Hd) as (d' & Hd' & K').
  exists (Rmin d0 d'). split; [now apply Rmin_glb_lt|]. intros x Hx. destruct (HE x (mono _ _ x (Rmin_l d0 d') Hx)) as (t & -> & Ht). apply K.
  assert (A := K' x (mono _ _ x (Rmin_r d0 d') Hx)). rewrite Rminus_0_r in A. assert (P := Rle_abs (k x)). lra.
Qed.
Lemma lim_comp : forall h c f, cont h c -> lim f c -> lim (fun x => h (f x)) (h c).
Proof.
  intros h c f HC HF eps He. destruct (HC eps He) as (d & Hd & K). destruct (HF d Hd) as (d' & Hd' & K'). exists d'. split; [auto|]. intros x Hx. apply K, K', Hx.
Qed.
Lemma lim_abs0 : forall f l, lim f l -> lim (fun x => Rabs (f x - l)) 0.
Proof. intros f l H eps He. destruct (H eps He) as (d & Hd & K). exists d. split; [auto|]. intros x Hx. rewrite Rminus_0_r, Rabs_Rabsolu. now apply K. Qed.
End Lim.
(** points x <> a *)
Definition at1 (a : R) (d : R) (x : R) : Prop := x <> a /\ Rabs (x - a) < d.
(** pairs close to (a, b) for which [P] holds *)
Definition at2 (P : R -> R -> Prop) (a b : R) (d : R) (x : R * R) : Prop := P (fst x) (snd x) /\ Rabs (fst x - a) < d /\ Rabs (snd x - b) < d.
Lemma at1_mono : forall a d d' x, d <= d' -> at1 a d x -> at1 a d' x.
Proof. intros a d d' x H (A & B). split; [auto|lra]. Qed.
Lemma at2_mono : forall P a b d d' x, d <= d' -> at2 P a b d x -> at2 P a b d' x.
Proof. intros P a b d d' x H (A & B & C). split; [auto|split; lra]. Qed.
Lemma lim_id1 : forall a, tends R (at1 a) (fun x => x) a.
Proof. intros a eps He. exists eps. split; [auto|]. intros x (_ & H). exact H. Qed.
Lemma lim_fst : forall P a b, tends (R * R) (at2 P a b) (fun x => fst x) a.
Proof. intros P a b eps He. exists eps. split; [auto|]. intros x (_ & H & _). exact H. Qed.
Lemma lim_snd : forall P a b, tends (R * R) (at2 P a b) (fun x => snd x) b.
Proof. intros P a b eps He. exists eps. split; [auto|]. intros x (_ & _ & H). exact H. Qed.
(** derivatives *)
Lemma lim_deriv : forall f a l, derivable_pt_lim f a l -> tends R (at1 a) (fun x => (f x - f a) / (x - a)) l.
Proof.
  intros f a l H eps He. destruct (H eps He) as (d & K). exists (pos d). split; [apply cond_pos|]. intros x (N & C).
  specialize (K (x - a) ltac:(lra) C). replace (a + (x - a)) with x in K by ring. exact K.
Qed.
Lemma cont_deriv : forall f c l, derivable_pt_lim f c l -> cont f c.
Proof.
  intros f c l H eps He. assert (HC : continuity_pt f c) by (apply derivable_continuous_pt; exists l; exact H).
  destruct (HC eps He) as (d & Hd & K). exists d. split; [exact Hd|]. intros t Ht. destruct (Req_dec t c) as [->|N]; [rewrite Rminus_diag_eq, Rabs_R0 by reflexivity; exact He|].
  apply (K t). split; [split; [exact I|auto]|exact Ht].
Qed.
Lemma mvt : forall f f' a b, (forall t, derivable_pt_lim f t (f' t)) -> exists t, f b - f a = f' t * (b - a) /\ Rabs (t - a) <= Rabs (b - a).
Proof.
  intros f f' a b H. destruct (Rtotal_order a b) as [L|[->|L]].
  - destruct (MVT_cor2 f f' a b L) as (t & E & T); [auto|]. exists t. split; [exact E|]. rewrite !Rabs_right by lra. lra.
  - exists b. split; [ring|]. lra.
  - destruct (MVT_cor2 f f' b a L) as (t & E & T); [auto|]. exists t. split; [lra|]. rewrite !Rabs_left by lra. lra.
Qed.

(** ** The Fermi and Bose functions *)
Lemma deriv_ext : forall f g x l m, (forall t, f t = g t) -> l = m -> derivable_pt_lim f x l -> derivable_pt_lim g x m.
Proof. intros f g x l m E <- H eps He. destruct (H eps He) as (d & K). exists d. intros h Hh Hd. rewrite <- !E. auto. Qed.
Lemma fermi_deriv : forall x, derivable_pt_lim fermi x (- exp x / ((exp x + 1) * (exp x + 1))).
Proof.
  intros x. assert (P := exp_pos x). assert (D : derivable_pt_lim (fun t => 1 + exp t) x (0 + exp x)).
  { apply derivable_pt_lim_plus; [apply derivable_pt_lim_const|apply derivable_pt_lim_exp]. }
  assert (D1 := derivable_pt_lim_div (fun _ => 1) (fun t => 1 + exp t) x 0 _ (derivable_pt_lim_const 1 x) D ltac:(lra)).
  refine (deriv_ext _ _ _ _ _ _ _ D1); [intros t; unfold div_fct, fermi, Rdiv; ring|]. unfold Rsqr. field. lra.
Qed.
Lemma fermi_cont : forall x, cont fermi x.
Proof. intros x. exact (cont_deriv _ _ _ (fermi_deriv x)). Qed.
(** t / (exp t - 1) tends to 1 *)
Definition bose_ (x : R) : R := 1 / (exp x - 1).
Lemma expm1_neq : forall t, t <> 0 -> exp t - 1 <> 0.
Proof. intros t H E. apply H. apply exp_inv. rewrite exp_0. lra. Qed.
Lemma bose_lim : tends R (at1 0) (fun t => t * bose_ t) 1.
Proof.
  assert (D : tends R (at1 0) (fun t => (exp t - exp 0) / (t - 0)) 1) by (apply lim_deriv; refine (deriv_ext _ _ _ _ _ (fun t => eq_refl) exp_0 (derivable_pt_lim_exp 0))).
  assert (CI : cont (fun t => / t) 1).
  { assert (X := derivable_pt_lim_div (fun _ => 1) id 1 0 1 (derivable_pt_lim_const 1 1) (derivable_pt_lim_id 1) R1_neq_R0).
    apply (cont_deriv _ _ (- 1)). refine (deriv_ext _ _ _ _ _ _ _ X); [intros t; unfold div_fct, id, Rdiv; ring|]. unfold Rsqr, id. field. }
  apply (lim_eq _ _ _ (/ 1)); [field|]. apply (lim_near R (at1 0) (at1_mono 0) (fun t => / ((exp t - exp 0) / (t - 0))) _ _ 1); [lra| |exact (lim_comp _ _ (fun t => / t) 1 _ CI D)].
  intros t (N & _). rewrite exp_0. unfold bose_. assert (Z := expm1_neq t N). field. split; [lra|auto].
Qed.
Lemma bose_cont : forall x, x <> 0 -> cont bose_ x.
Proof.
  intros x N. assert (D : derivable_pt_lim (fun t => exp t - 1) x (exp x - 0)) by (apply derivable_pt_lim_minus; [apply derivable_pt_lim_exp|apply derivable_pt_lim_const]).
  assert (D1 := derivable_pt_lim_div (fun _ => 1) (fun t => exp t - 1) x 0 _ (derivable_pt_lim_const 1 x) D (expm1_neq x N)).
  exact (cont_deriv _ _ _ D1).
Qed.

(** ** The general formulas *)
(** equations D3 and D4 of PRB 78, 235424 for the Fermi function, the Bose function and an even function [f] *)
Section Formulas.
Variable f : R -> R.
Definition direct (p1 p2 E1 d E2 : R) : R :=
  (p1 * p2 * ((fermi E1 + bose_ d) * f (d - E1) - (fermi E2 + bose_ d) * f (d - E2) - (bose_ d + / 2) * (f E1 - f E2)) + p2 / 2 * (f E1 - f E2)) / (E1 - E2).
Definition exchange (p1 p2 E1 d E2 : R) : R :=
  p1 * p2 * (((fermi E1 + bose_ d) * (f (d - E1) - f E2) + (fermi E2 + bose_ d) * (f (d - E2) - f E1)) / (d - E1 - E2)).

Variables f1 f2 : R -> R.
Hypothesis even : forall x, f (- x) = f x.
Hypothesis D1 : forall x, derivable_pt_lim f x (f1 x).
Hypothesis D2 : forall x, derivable_pt_lim f1 x (f2 x).
Hypothesis C2 : forall x, cont f2 x.
Lemma refl_deriv : forall g g' x, derivable_pt_lim g (- x) g' -> derivable_pt_lim (fun t => g (- t)) x (- g').
Proof.
  intros g g' x H. assert (X := derivable_pt_lim_comp (fun t => - t) g x (- 1) g'). unfold comp in X.
  refine (deriv_ext _ _ _ _ _ (fun t => eq_refl) _ (X _ H)); [ring|]. apply (derivable_pt_lim_opp id). apply derivable_pt_lim_id.
Qed.
Lemma f1_odd : forall x, f1 (- x) = - f1 x.
Proof.
  intros x. assert (A := refl_deriv f _ x (D1 (- x))). assert (B : derivable_pt_lim f x (- f1 (- x))) by (refine (deriv_ext _ _ _ _ _ even eq_refl A)).
  assert (U := uniqueness_limite f x _ _ B (D1 x)). lra.
Qed.
Lemma f2_even : forall x, f2 (- x) = f2 x.
Proof.
  intros x. assert (A := refl_deriv f1 _ x (D2 (- x))).
  assert (B : derivable_pt_lim (fun t => - f1 t) x (- f2 (- x))) by (refine (deriv_ext _ _ _ _ _ f1_odd eq_refl A)).
  assert (U := uniqueness_limite _ x _ _ B (derivable_pt_lim_opp f1 x _ (D2 x))). lra.
Qed.
Lemma shift_deriv : forall g g' c x, derivable_pt_lim g (c - x) g' -> derivable_pt_lim (fun t => g (c - t)) x (- g').
Proof.
  intros g g' c x H. assert (X := derivable_pt_lim_comp (fun t => c - t) g x (0 - 1) g'). unfold comp in X.
  refine (deriv_ext _ _ _ _ _ (fun t => eq_refl) _ (X _ H)); [ring|]. apply (derivable_pt_lim_minus (fun _ => c) id); [apply derivable_pt_lim_const|apply derivable_pt_lim_id].
Qed.
Lemma shift_deriv' : forall g g' c x, derivable_pt_lim g (x - c) g' -> derivable_pt_lim (fun t => g (t - c)) x g'.
Proof.
  intros g g' c x H. assert (X := derivable_pt_lim_comp (fun t => t - c) g x (1 - 0) g'). unfold comp in X.
  refine (deriv_ext _ _ _ _ _ (fun t => eq_refl) _ (X _ H)); [ring|]. apply (derivable_pt_lim_minus id (fun _ => c)); [apply derivable_pt_lim_id|apply derivable_pt_lim_const].
Qed.
Lemma fc : forall x, cont f x. Proof. intros x. exact (cont_deriv _ _ _ (D1 x)). Qed.
Lemma f1c : forall x, cont f1 x. Proof. intros x. exact (cont_deriv _ _ _ (D2 x)). Qed.
Local Notation dF := (fun x => - exp x / ((exp x + 1) * (exp x + 1))).
(** the derivative of the quotient's numerator *)
Definition G (p1 p2 d x : R) : R := p1 * p2 * ((fermi x + bose_ d) * f (d - x) - (bose_ d + / 2) * f x) + p2 / 2 * f x.
Definition G' (p1 p2 d x : R) : R := p1 * p2 * (dF x * f (d - x) - (fermi x + bose_ d) * f1 (d - x) - (bose_ d + / 2) * f1 x) + p2 / 2 * f1 x.
Lemma G_deriv : forall p1 p2 d x, derivable_pt_lim (G p1 p2 d) x (G' p1 p2 d x).
Proof.
  intros p1 p2 d x. assert (A := shift_deriv f _ d x (D1 (d - x))).
  assert (A1 : derivable_pt_lim (fun t => fermi t + bose_ d) x (dF x + 0)) by (apply (derivable_pt_lim_plus fermi (fun _ => bose_ d)); [apply fermi_deriv|apply derivable_pt_lim_const]).
  assert (M := derivable_pt_lim_mult _ _ x _ _ A1 A).
  assert (S1 := derivable_pt_lim_scal f (bose_ d + / 2) x _ (D1 x)). assert (S2 := derivable_pt_lim_scal f (p2 / 2) x _ (D1 x)).
  assert (M2 := derivable_pt_lim_scal _ (p1 * p2) x _ (derivable_pt_lim_minus _ _ x _ _ M S1)).
  assert (S := derivable_pt_lim_plus _ _ x _ _ M2 S2).
  refine (deriv_ext _ _ _ _ _ _ _ S).
  - intros t. unfold plus_fct, mult_real_fct, minus_fct, mult_fct, G. ring.
  - unfold G'. ring.
Qed.
Lemma direct_G : forall p1 p2 E1 d E2, E1 <> E2 -> direct p1 p2 E1 d E2 = (G p1 p2 d E2 - G p1 p2 d E1) / (E2 - E1).
Proof. intros. unfold direct, G. field. split; lra. Qed.

(** E2 tends to E1 *)
Lemma direct_E : forall p1 p2 E1 d, tends R (at1 E1) (fun e => direct p1 p2 E1 d e) (G' p1 p2 d E1).
Proof.
  intros p1 p2 E1 d. apply (lim_near R (at1 E1) (at1_mono E1) (fun e => (G p1 p2 d e - G p1 p2 d E1) / (e - E1)) _ _ 1); [lra| |apply lim_deriv, G_deriv].
  intros e (N & _). rewrite direct_G by auto. reflexivity.
Qed.
(** b(d) (g(d - x) - g(- x)) tends to g'(- x) *)
Lemma bose_diff : forall g g' x, derivable_pt_lim g (- x) g' -> tends R (at1 0) (fun d => bose_ d * (g (d - x) - g (- x))) g'.
Proof.
  intros g g' x H. assert (A : derivable_pt_lim (fun t => g (t - x)) 0 g') by (apply shift_deriv'; now rewrite Rminus_0_l).
  apply (lim_eq _ _ _ (1 * g')); [ring|].
  apply (lim_near R (at1 0) (at1_mono 0) (fun d => (d * bose_ d) * ((g (d - x) - g (0 - x)) / (d - 0))) _ _ 1); [lra| |].
  - intros d (N & _). rewrite Rminus_0_l. field. lra.
  - apply (lim_mult R (at1 0) (at1_mono 0)); [exact bose_lim|]. exact (lim_deriv (fun t => g (t - x)) 0 g' A).
Qed.
Lemma lim_shift : forall g x, cont g (- x) -> tends R (at1 0) (fun d => g (d - x)) (g (- x)).
Proof.
  intros g x H. apply (lim_comp R (at1 0) g (- x) (fun d => d - x)); [exact H|]. apply (lim_eq _ _ _ (0 - x)); [ring|].
  apply (lim_minus R (at1 0) (at1_mono 0)); [apply lim_id1|apply lim_const].
Qed.
(** d tends to 0 *)
Lemma direct_d : forall p1 p2 E1 E2, E1 <> E2 -> tends R (at1 0) (fun d => direct p1 p2 E1 d E2)
  ((p1 * p2 * (fermi E1 * f (- E1) - f1 E1 - (fermi E2 * f (- E2) - f1 E2) - / 2 * (f E1 - f E2)) + p2 / 2 * (f E1 - f E2)) / (E1 - E2)).
Proof.
  intros p1 p2 E1 E2 N. set (c := p2 / 2 * (f E1 - f E2)).
  assert (ONE : forall x, tends R (at1 0) (fun d => fermi x * f (d - x) + bose_ d * (f (d - x) - f (- x))) (fermi x * f (- x) - f1 x)).
  { intros x. apply (lim_plus R (at1 0) (at1_mono 0)); [apply (lim_scal R (at1 0) (at1_mono 0)); apply lim_shift, fc|]. rewrite <- f1_odd. apply bose_diff, D1. }
  apply (lim_ext R (at1 0) (at1_mono 0) (fun d => (p1 * p2 * ((fermi E1 * f (d - E1) + bose_ d * (f (d - E1) - f (- E1))) - (fermi E2 * f (d - E2) + bose_ d * (f (d - E2) - f (- E2))) - / 2 * (f E1 - f E2)) + c) * / (E1 - E2))).
  { intros d. unfold direct, c, Rdiv. rewrite !even. ring. }
  unfold Rdiv. apply (lim_mult R (at1 0) (at1_mono 0)); [|apply lim_const]. apply (lim_plus R (at1 0) (at1_mono 0)); [|apply lim_const].
  apply (lim_scal R (at1 0) (at1_mono 0)). apply (lim_minus R (at1 0) (at1_mono 0)); [|apply lim_const].
  apply (lim_minus R (at1 0) (at1_mono 0)); apply ONE.
Qed.
(** both *)
Definition P2D (E1 d e : R) : Prop := d <> 0 /\ e <> E1.
Lemma direct_both : forall p1 p2 E1, tends (R * R) (at2 (P2D E1) 0 E1) (fun x => direct p1 p2 E1 (fst x) (snd x))
  (p1 * p2 * (dF E1 * f (- E1) - fermi E1 * f1 (- E1) - f2 E1 - / 2 * f1 E1) + p2 / 2 * f1 E1).
Proof.
  intros p1 p2 E1.
  (* the direct part is G'(t) with t between E1 and e *)
  set (F := fun t d => p1 * p2 * (dF t * f (d - t) - fermi t * f1 (d - t) - / 2 * f1 t) + p2 / 2 * f1 t).
  assert (GF : forall d t, d <> 0 -> exists u, G' p1 p2 d t = F t d - p1 * p2 * ((d * bose_ d) * f2 u) /\ Rabs (u + t) <= Rabs d).
  { intros d t N. destruct (mvt f1 f2 (- t) (d - t) D2) as (u & U1 & U2). exists u. replace (d - t - - t) with d in U1, U2 by ring. split; [|now replace (u + t) with (u - - t) by ring].
    rewrite f1_odd in U1. unfold G', F. replace (f1 (d - t)) with (f1 (d - t)) by ring. assert (X : bose_ d * f1 (d - t) = bose_ d * (f2 u * d) - bose_ d * f1 t) by (rewrite <- U1; ring).
    replace ((fermi t + bose_ d) * f1 (d - t)) with (fermi t * f1 (d - t) + bose_ d * f1 (d - t)) by ring. rewrite X. ring. }
  (* estimate *)
  assert (DF : cont (fun t => dF t) E1).
  { set (den := fun t => (exp t + 1) * (exp t + 1)).
    assert (DE : derivable_pt_lim (fun t => exp t + 1) E1 (exp E1 + 0)) by (apply (derivable_pt_lim_plus exp (fun _ => 1)); [apply derivable_pt_lim_exp|apply derivable_pt_lim_const]).
    assert (DD := derivable_pt_lim_mult _ _ E1 _ _ DE DE). assert (DN := derivable_pt_lim_opp exp E1 _ (derivable_pt_lim_exp E1)).
    assert (NZ : mult_fct (fun t => exp t + 1) (fun t => exp t + 1) E1 <> 0). { unfold mult_fct. assert (P := exp_pos E1). apply Rmult_integral_contrapositive; split; lra. }
    exact (cont_deriv _ _ _ (derivable_pt_lim_div _ _ E1 _ _ DN DD NZ)). }
  (* choose the intermediate points by an epsilon argument *)
  intros eps He.
  assert (FL : exists r, 0 < r /\ forall t d, Rabs (t - E1) < r -> Rabs d < r -> Rabs (F t d - F E1 0) < eps / 2).
  { set (B' := fun d (x : R * R) => Rabs (fst x - E1) < d /\ Rabs (snd x) < d). assert (MO' : forall d d' x, d <= d' -> B' d x -> B' d' x) by (intros d d' x H (Q1 & Q2); split; lra).
    assert (L1 : tends (R * R) B' (fun x => fst x) E1) by (intros e0 H0; exists e0; split; [auto|intros x (Q & _); exact Q]).
    assert (L2 : tends (R * R) B' (fun x => snd x) 0) by (intros e0 H0; exists e0; split; [auto|intros x (_ & Q); now rewrite Rminus_0_r]).
    assert (L3 : forall h, cont h (0 - E1) -> tends (R * R) B' (fun x => h (snd x - fst x)) (h (0 - E1))).
    { intros h Hh. apply (lim_comp _ _ h (0 - E1) (fun x => snd x - fst x) Hh). apply (lim_minus _ _ MO'); auto. }
    assert (L4 : forall h, cont h E1 -> tends (R * R) B' (fun x => h (fst x)) (h E1)) by (intros h Hh; apply (lim_comp _ _ h E1 (fun x => fst x) Hh); auto).
    assert (LL : tends (R * R) B' (fun x => F (fst x) (snd x)) (F E1 0)).
    { unfold F. apply (lim_plus _ _ MO'); [|apply (lim_scal _ _ MO'); apply (L4 f1), f1c]. apply (lim_scal _ _ MO').
      apply (lim_minus _ _ MO'); [|apply (lim_scal _ _ MO'); apply (L4 f1), f1c].
      apply (lim_minus _ _ MO'); apply (lim_mult _ _ MO'); [apply (L4 (fun t => dF t) DF)|apply (L3 f), fc|apply (L4 fermi), fermi_cont|apply (L3 f1), f1c]. }
    destruct (LL (eps / 2) ltac:(lra)) as (r & Hr & K). exists r. split; [exact Hr|]. intros t d Ht Hd. apply (K (t, d)). split; auto. }
  assert (FB : exists r, 0 < r /\ forall u d, Rabs (u + E1) < r -> d <> 0 -> Rabs d < r -> Rabs (p1 * p2 * ((d * bose_ d) * f2 u) - p1 * p2 * (1 * f2 (- E1))) < eps / 2).
  { set (B' := fun d (x : R * R) => snd x <> 0 /\ Rabs (fst x - - E1) < d /\ Rabs (snd x - 0) < d). assert (MO' : forall d d' x, d <= d' -> B' d x -> B' d' x) by (intros d d' x H (Q0 & Q1 & Q2); repeat split; auto; lra).
    assert (LL : tends (R * R) B' (fun x => p1 * p2 * ((snd x * bose_ (snd x)) * f2 (fst x))) (p1 * p2 * (1 * f2 (- E1)))).
    { apply (lim_scal _ _ MO'). apply (lim_mult _ _ MO').
      - intros e0 H0. destruct (bose_lim e0 H0) as (d & Hd & K). exists d. split; [exact Hd|]. intros x (Q0 & _ & Q2). apply K. split; auto.
      - apply (lim_comp _ _ f2 (- E1) (fun x => fst x) (C2 (- E1))). intros e0 H0. exists e0. split; [auto|]. intros x (_ & Q & _). exact Q. }
    destruct (LL (eps / 2) ltac:(lra)) as (r & Hr & K). exists r. split; [exact Hr|]. intros u d Hu N Hd. apply (K (u, d)). unfold B'. cbn [fst snd]. split; [exact N|]. split; [replace (u - - E1) with (u + E1) by ring; exact Hu|rewrite Rminus_0_r; exact Hd]. }
  destruct FL as (r1 & Hr1 & K1). destruct FB as (r2 & Hr2 & K2). exists (Rmin r1 (r2 / 2)). split; [apply Rmin_glb_lt; lra|].
  intros [d e] ((Nd & Ne) & Hd & Hee). cbn [fst snd] in *. rewrite Rminus_0_r in Hd. assert (R1 := Rmin_l r1 (r2 / 2)). assert (R2 := Rmin_r r1 (r2 / 2)).
  rewrite direct_G by auto. destruct (mvt (G p1 p2 d) (G' p1 p2 d) E1 e (G_deriv p1 p2 d)) as (t & T1 & T2).
  assert (Q : (G p1 p2 d e - G p1 p2 d E1) / (e - E1) = G' p1 p2 d t) by (rewrite T1; field; lra). rewrite Q.
  destruct (GF d t Nd) as (u & -> & U2).
  assert (A1 := K1 t d ltac:(lra) ltac:(lra)). assert (HU : Rabs (u + E1) < r2).
  { replace (u + E1) with ((u + t) + - (t - E1)) by ring. eapply Rle_lt_trans; [apply Rabs_triang|]. rewrite Rabs_Ropp. lra. }
  assert (A2 := K2 u d HU Nd ltac:(lra)).
  match goal with |- Rabs (?x - ?y - ?l) < _ => replace (x - y - l) with ((x - F E1 0) + - (y - p1 * p2 * (1 * f2 (- E1)))) by (unfold F; rewrite f2_even, !Rminus_0_l; ring) end.
  eapply Rle_lt_trans; [apply Rabs_triang|]. rewrite Rabs_Ropp. lra.
Qed.

(** *** the exchange formula *)
Lemma deriv_at : forall g c g' a b, derivable_pt_lim g b g' -> a - c = b -> g b = g (a - c) ->
  tends R (at1 a) (fun d => (g (d - c) - g b) / (d - a)) g'.
Proof.
  intros g c g' a b H E _. subst b. exact (lim_deriv (fun t => g (t - c)) a g' (shift_deriv' g g' c a H)).
Qed.
Lemma exchange_s : forall p1 p2 E1 E2, E1 + E2 <> 0 -> tends R (at1 (E1 + E2)) (fun d => exchange p1 p2 E1 d E2)
  (p1 * p2 * ((fermi E1 + bose_ (E1 + E2)) * f1 E2 + (fermi E2 + bose_ (E1 + E2)) * f1 E1)).
Proof.
  intros p1 p2 E1 E2 N. set (s := E1 + E2). assert (MO := at1_mono s).
  assert (LB : tends R (at1 s) (fun d => bose_ d) (bose_ s)) by (apply (lim_comp R (at1 s) bose_ s (fun d => d)); [apply bose_cont; exact N|apply lim_id1]).
  apply (lim_near R (at1 s) MO (fun d => p1 * p2 * ((fermi E1 + bose_ d) * ((f (d - E1) - f E2) / (d - s)) + (fermi E2 + bose_ d) * ((f (d - E2) - f E1) / (d - s)))) _ _ 1); [lra| |].
  - intros d (Nd & _). unfold exchange. unfold s in *. field. lra.
  - apply (lim_scal R (at1 s) MO). apply (lim_plus R (at1 s) MO); apply (lim_mult R (at1 s) MO).
    + apply (lim_plus R (at1 s) MO); [apply lim_const|exact LB].
    + apply deriv_at; [apply D1|unfold s; ring|f_equal; unfold s; ring].
    + apply (lim_plus R (at1 s) MO); [apply lim_const|exact LB].
    + apply deriv_at; [apply D1|unfold s; ring|f_equal; unfold s; ring].
Qed.
Lemma exchange_d : forall p1 p2 E1 E2, E1 + E2 <> 0 -> tends R (at1 0) (fun d => exchange p1 p2 E1 d E2)
  (p1 * p2 * ((fermi E1 * (f (- E1) - f E2) + fermi E2 * (f (- E2) - f E1) - (f1 E1 + f1 E2)) * / (- (E1 + E2)))).
Proof.
  intros p1 p2 E1 E2 N. assert (MO := at1_mono 0).
  apply (lim_near R (at1 0) MO (fun d => p1 * p2 * ((fermi E1 * (f (d - E1) - f E2) + fermi E2 * (f (d - E2) - f E1)
     + (bose_ d * (f (d - E1) - f (- E1)) + bose_ d * (f (d - E2) - f (- E2)))) * / (d - (E1 + E2)))) _ _ 1); [lra| |].
  - intros d _. unfold exchange, Rdiv. rewrite !even. replace (d - (E1 + E2)) with (d - E1 - E2) by ring. ring.
  - apply (lim_scal R (at1 0) MO). apply (lim_mult R (at1 0) MO).
    + apply (lim_eq _ _ _ ((fermi E1 * (f (- E1) - f E2) + fermi E2 * (f (- E2) - f E1)) + (f1 (- E1) + f1 (- E2)))); [rewrite !f1_odd; ring|].
      apply (lim_plus R (at1 0) MO); apply (lim_plus R (at1 0) MO).
      * apply (lim_scal R (at1 0) MO), (lim_minus R (at1 0) MO); [apply lim_shift, fc|apply lim_const].
      * apply (lim_scal R (at1 0) MO), (lim_minus R (at1 0) MO); [apply lim_shift, fc|apply lim_const].
      * apply bose_diff, D1.
      * apply bose_diff, D1.
    + assert (CI : cont (fun t => / t) (- (E1 + E2))).
      { assert (DI := derivable_pt_lim_div (fun _ => 1) id (- (E1 + E2)) _ _ (derivable_pt_lim_const 1 _) (derivable_pt_lim_id _)). unfold id in DI at 1.
        assert (NZ : - (E1 + E2) <> 0) by lra. assert (C := cont_deriv _ _ _ (DI NZ)).
        intros eps He. destruct (C eps He) as (r & Hr & K). exists r. split; [exact Hr|]. intros t Ht. specialize (K t Ht). unfold div_fct, id, Rdiv in K. now rewrite !Rmult_1_l in K. }
      apply (lim_comp R (at1 0) (fun t => / t) (- (E1 + E2)) (fun d => d - (E1 + E2)) CI). apply (lim_eq _ _ _ (0 - (E1 + E2))); [ring|].
      apply (lim_minus R (at1 0) MO); [apply lim_id1|apply lim_const].
Qed.
Definition P2X (E1 d e : R) : Prop := d <> 0 /\ d - E1 - e <> 0.
Lemma exchange_both : forall p1 p2 E1, tends (R * R) (at2 (P2X E1) 0 (- E1)) (fun x => exchange p1 p2 E1 (fst x) (snd x))
  (p1 * p2 * (fermi E1 * f1 (- E1) + fermi (- E1) * f1 E1 + f2 E1)).
Proof.
  intros p1 p2 E1. set (B := at2 (P2X E1) 0 (- E1)). assert (MO : forall d d' x, d <= d' -> B d x -> B d' x) by (intros; eapply at2_mono; eauto).
  set (ep := fun x : R * R => fst x - E1 - snd x).
  assert (LD : tends (R * R) B (fun x => fst x) 0) by apply lim_fst. assert (LE : tends (R * R) B (fun x => snd x) (- E1)) by apply lim_snd.
  assert (Lep : tends (R * R) B ep 0).
  { unfold ep. apply (lim_eq _ _ _ (0 - E1 - - E1)); [ring|]. apply (lim_minus _ _ MO); [|exact LE]. apply (lim_minus _ _ MO); [exact LD|apply lim_const]. }
  assert (A0 : tends (R * R) B (fun x => Rabs (ep x)) 0).
  { apply (lim_ext _ _ MO (fun x => Rabs (ep x - 0))); [intros x; now rewrite Rminus_0_r|]. now apply lim_abs0. }
  assert (A1 : tends (R * R) B (fun x => Rabs (fst x)) 0).
  { apply (lim_ext _ _ MO (fun x => Rabs (fst x - 0))); [intros x; now rewrite Rminus_0_r|]. now apply lim_abs0. }
  assert (A2 : tends (R * R) B (fun x => Rabs (snd x - - E1)) 0) by now apply lim_abs0.
  assert (AS : tends (R * R) B (fun x => Rabs (fst x) + Rabs (ep x)) 0).
  { apply (lim_eq _ _ _ (0 + 0)); [ring|]. now apply (lim_plus _ _ MO). }
  assert (Q1 : tends (R * R) B (fun x => (f (fst x - E1) - f (snd x)) / ep x) (f1 (- E1))).
  { apply (lim_between _ _ MO f1 (- E1) _ (fun x => Rabs (ep x) + Rabs (snd x - - E1)) 1); [lra|apply f1c| |].
    - intros [d e] ((N1 & N2) & _). cbn [fst snd] in *. destruct (mvt f f1 e (d - E1) D1) as (t & T1 & T2). exists t. unfold ep; cbn [fst snd].
      replace (d - E1 - e) with (d - E1 - e) in T1 by ring. split; [rewrite T1; field; exact N2|].
      replace (t - - E1) with ((t - e) + (e - - E1)) by ring. eapply Rle_trans; [apply Rabs_triang|]. lra.
    - apply (lim_eq _ _ _ (0 + 0)); [ring|]. now apply (lim_plus _ _ MO). }
  assert (Q2 : tends (R * R) B (fun x => (f (fst x - snd x) - f E1) / ep x) (f1 E1)).
  { apply (lim_between _ _ MO f1 E1 _ (fun x => Rabs (ep x)) 1); [lra|apply f1c| |exact A0].
    intros [d e] ((N1 & N2) & _). cbn [fst snd] in *. destruct (mvt f f1 E1 (d - e) D1) as (t & T1 & T2). exists t. unfold ep; cbn [fst snd].
    replace (d - e - E1) with (d - E1 - e) in T1, T2 by ring. split; [rewrite T1; field; exact N2|exact T2]. }
  assert (Q3 : tends (R * R) B (fun x => (f (fst x - E1) - f (snd x) + (f (fst x - snd x) - f E1)) / (fst x * ep x)) (f2 (- E1))).
  { apply (lim_between _ _ MO f2 (- E1) _ (fun x => Rabs (fst x) + Rabs (ep x)) 1); [lra|apply C2| |exact AS].
    intros [d e] ((N1 & N2) & _). cbn [fst snd] in *. unfold ep; cbn [fst snd]. set (q := d - E1 - e) in *.
    destruct (mvt (fun t => f (t - E1) - f (t - (E1 + q))) (fun t => f1 (t - E1) - f1 (t - (E1 + q))) 0 d) as (t & T1 & T2).
    { intros t. apply (derivable_pt_lim_minus (fun t => f (t - E1)) (fun t => f (t - (E1 + q)))); apply shift_deriv', D1. }
    destruct (mvt f1 f2 (t - E1) (t - (E1 + q)) D2) as (u & U1 & U2). exists u.
    replace (t - (E1 + q) - (t - E1)) with (- q) in U1, U2 by ring. rewrite Rabs_Ropp in U2. replace (d - 0) with d in T1, T2 by ring. replace (t - 0) with t in T2 by ring. split.
    - replace (d - (E1 + q)) with e in T1 by (unfold q; ring). replace (0 - E1) with (- E1) in T1 by ring. replace (0 - (E1 + q)) with (- (d - e)) in T1 by (unfold q; ring).
      rewrite !even in T1. replace (f1 (t - E1) - f1 (t - (E1 + q))) with (f2 u * q) in T1 by lra.
      replace (f (d - E1) - f e + (f (d - e) - f E1)) with (f2 u * q * d) by (rewrite <- T1; ring). field. split; auto.
    - replace (u - - E1) with ((u - (t - E1)) + t) by ring. eapply Rle_trans; [apply Rabs_triang|]. lra. }
  assert (LB : tends (R * R) B (fun x => fst x * bose_ (fst x)) 1).
  { intros eps He. destruct (bose_lim eps He) as (r & Hr & K). exists r. split; [exact Hr|]. intros x ((N1 & _) & X1 & _). apply K. split; auto. }
  assert (LFe : tends (R * R) B (fun x => fermi (snd x)) (fermi (- E1))) by (apply (lim_comp _ _ fermi (- E1) (fun x => snd x)); [apply fermi_cont|exact LE]).
  apply (lim_near _ B MO (fun x => p1 * p2 * (fermi E1 * ((f (fst x - E1) - f (snd x)) / ep x) + fermi (snd x) * ((f (fst x - snd x) - f E1) / ep x)
    + (fst x * bose_ (fst x)) * ((f (fst x - E1) - f (snd x) + (f (fst x - snd x) - f E1)) / (fst x * ep x)))) _ _ 1); [lra| |].
  - intros [d e] ((N1 & N2) & _). cbn [fst snd] in *. unfold exchange, ep; cbn [fst snd]. field. split; auto.
  - apply (lim_scal _ _ MO). apply (lim_plus _ _ MO); [apply (lim_plus _ _ MO)|].
    + apply (lim_scal _ _ MO). exact Q1.
    + apply (lim_mult _ _ MO); [exact LFe|exact Q2].
    + apply (lim_eq _ _ _ (1 * f2 (- E1))); [rewrite f2_even; ring|]. apply (lim_mult _ _ MO); [exact LB|exact Q3].
Qed.
(** the formulas do not depend on the order of the two energies *)
Lemma direct_sym : forall p1 p2 E1 d E2, direct p1 p2 E1 d E2 = direct p1 p2 E2 d E1.
Proof.
  intros. unfold direct. destruct (Req_dec E1 E2) as [->|N]; [reflexivity|]. field. split; lra.
Qed.
Lemma exchange_sym : forall p1 p2 E1 d E2, exchange p1 p2 E1 d E2 = exchange p1 p2 E2 d E1.
Proof. intros. unfold exchange. replace (d - E2 - E1) with (d - E1 - E2) by ring. f_equal. f_equal. ring. Qed.
End Formulas.

(** ** phi *)
Section Phi.
Variables psi_re psi1_im psi2_re : R -> R.
(** On the line Re z = 1/2 the digamma function is psi(1/2 + iy); its derivatives along the line are i psi_1 and - psi_2.  Its real part is even in y. *)
Record psi_contract : Prop := {
  pc_even : forall y, psi_re (- y) = psi_re y;
  pc_d1 : forall y, derivable_pt_lim psi_re y (- psi1_im y);
  pc_d2 : forall y, derivable_pt_lim psi1_im y (psi2_re y);
  pc_c2 : forall y, cont psi2_re y }.
Hypothesis PC : psi_contract.
Local Notation ph Dp Dm := (fun x => phi psi_re x Dp Dm).
Local Notation w := (2 * PI).
Lemma w_pos : 0 < w. Proof. assert (P := PI_RGT_0). lra. Qed.
Lemma scale_deriv : forall g g' x, derivable_pt_lim g (x / w) g' -> derivable_pt_lim (fun t => g (t / w)) x (g' * / w).
Proof.
  intros g g' x H. assert (X := derivable_pt_lim_comp (fun t => t / w) g x (/ w) g'). unfold comp in X. apply X; [|exact H].
  refine (deriv_ext (mult_real_fct (/ w) id) _ _ (/ w * 1) _ _ _ (derivable_pt_lim_scal id (/ w) x 1 (derivable_pt_lim_id x))); [intros t; unfold mult_real_fct, id, Rdiv; ring|ring].
Qed.
Lemma phi_even : forall Dp Dm x, phi psi_re (- x) Dp Dm = phi psi_re x Dp Dm.
Proof. intros. unfold phi. replace (- x / w) with (- (x / w)) by (unfold Rdiv; ring). now rewrite (pc_even PC). Qed.
Lemma phi_d1 : forall Dp Dm x, derivable_pt_lim (ph Dp Dm) x (diff_phi psi1_im x).
Proof.
  intros. assert (A := scale_deriv psi_re _ x (pc_d1 PC (x / w))).
  assert (S := derivable_pt_lim_plus _ (fun _ => ln (/ 2 * (Rabs Dp + Rabs Dm) / w)) x _ _ (derivable_pt_lim_opp _ x _ A) (derivable_pt_lim_const _ x)).
  refine (deriv_ext _ _ _ _ _ (fun t => eq_refl) _ S). unfold diff_phi. field. assert (P := w_pos). lra.
Qed.
Lemma phi_d2 : forall x, derivable_pt_lim (diff_phi psi1_im) x (diff2_phi psi2_re x).
Proof.
  intros. assert (A := scale_deriv psi1_im _ x (pc_d2 PC (x / w))).
  refine (deriv_ext _ _ _ _ _ (fun t => eq_refl) _ (derivable_pt_lim_scal _ (1 / w) x _ A)). unfold diff2_phi. field. assert (P := w_pos). lra.
Qed.
Lemma phi_c2 : forall x, cont (diff2_phi psi2_re) x.
Proof.
  intros x. assert (MO : forall d d' t, d <= d' -> Rabs (t - x) < d -> Rabs (t - x) < d') by (intros; lra). set (B := fun d t => Rabs (t - x) < d).
  assert (L : tends R B (fun t => diff2_phi psi2_re t) (diff2_phi psi2_re x)).
  { unfold diff2_phi. apply (lim_scal R B MO). apply (lim_comp R B psi2_re (x / w) (fun t => t / w)); [apply (pc_c2 PC)|]. unfold Rdiv.
    apply (lim_mult R B MO); [|apply lim_const]. intros eps He. exists eps. split; [exact He|]. auto. }
  exact L.
Qed.

(** ** The guards *)
Lemma cut_pos : 0 < cut. Proof. unfold cut. lra. Qed.
Lemma fermi_in : forall x, x <= cut -> fermi_func x = fermi x.
Proof. intros x H. now apply fermi_below. Qed.
Lemma diff_fermi_in : forall x, x <= cut / 2 -> diff_fermi x = - exp x / ((exp x + 1) * (exp x + 1)).
Proof. intros x H. unfold diff_fermi. destruct (Rlt_dec (cut / 2) x); [lra|reflexivity]. Qed.
Lemma bose_in : forall x, x <= cut -> bose x = bose_ x.
Proof. intros x H. unfold bose. destruct (Rlt_dec cut x); [lra|reflexivity]. Qed.
Lemma E_MIN_pos : 0 < E_MIN. Proof. unfold E_MIN. assert (0 < 10 ^ 10) by (apply pow_lt; lra). apply Rdiv_lt_0_compat; lra. Qed.

Local Notation DI := (D_equal_T psi_re psi1_im psi2_re).
Local Notation XI := (X_equal_T psi_re psi1_im psi2_re).
(** ** C61 *)
(** Away from the degenerate points the functions are the general formulas. *)
Theorem C61_direct_general : forall p1 p2 E1 d E2 Dp Dm, E1 <= cut -> E2 <= cut -> d <= cut -> E_MIN <= Rabs (E1 - E2) -> E_MIN <= Rabs d ->
  DI p1 p2 E1 d E2 Dp Dm = direct (ph Dp Dm) p1 p2 E1 d E2.
Proof.
  intros p1 p2 E1 d E2 Dp Dm H1 H2 H3 H4 H5. unfold D_equal_T. destruct (Rlt_dec (Rabs (E1 - E2)) E_MIN); [lra|]. destruct (Rlt_dec (Rabs d) E_MIN); [lra|].
  rewrite !fermi_in, !bose_in by auto. unfold direct, delta_phi, Rdiv. ring.
Qed.
Theorem C61_exchange_general : forall p1 p2 E1 d E2 Dp Dm, E1 <= cut -> E2 <= cut -> d <= cut -> E_MIN <= Rabs (d - E1 - E2) -> E_MIN <= Rabs d ->
  XI p1 p2 E1 d E2 Dp Dm = exchange (ph Dp Dm) p1 p2 E1 d E2.
Proof.
  intros p1 p2 E1 d E2 Dp Dm H1 H2 H3 H4 H5. unfold X_equal_T. destruct (Rlt_dec (Rabs (d - E1 - E2)) E_MIN); [lra|]. destruct (Rlt_dec (Rabs d) E_MIN); [lra|].
  rewrite !fermi_in, !bose_in by auto. unfold exchange, delta_phi, Rdiv. ring.
Qed.
Lemma zero_in : Rabs 0 < E_MIN. Proof. rewrite Rabs_R0. apply E_MIN_pos. Qed.
Lemma in_out : forall x, E_MIN <= Rabs x -> x <> 0. Proof. intros x H ->. assert (P := zero_in). lra. Qed.
(** At the degenerate points they are the limits of the general formulas. *)
Theorem C61_direct_equal : forall p1 p2 E1 d Dp Dm, E1 <= cut / 2 -> d <= cut -> E_MIN <= Rabs d ->
  tends R (at1 E1) (fun e => direct (ph Dp Dm) p1 p2 E1 d e) (DI p1 p2 E1 d E1 Dp Dm).
Proof.
  intros p1 p2 E1 d Dp Dm H1 H2 H3. assert (P := cut_pos). eapply lim_eq; [|exact (direct_E (ph Dp Dm) (diff_phi psi1_im) (phi_d1 Dp Dm) p1 p2 E1 d)].
  unfold D_equal_T. rewrite Rminus_eq_0. destruct (Rlt_dec (Rabs 0) E_MIN) as [_|N]; [|elim N; apply zero_in]. destruct (Rlt_dec (Rabs d) E_MIN); [lra|].
  rewrite !fermi_in, !bose_in, diff_fermi_in by lra. unfold G', Rdiv. ring.
Qed.
Theorem C61_direct_zero : forall p1 p2 E1 E2 Dp Dm, E1 <= cut -> E2 <= cut -> E_MIN <= Rabs (E1 - E2) ->
  tends R (at1 0) (fun d => direct (ph Dp Dm) p1 p2 E1 d E2) (DI p1 p2 E1 0 E2 Dp Dm).
Proof.
  intros p1 p2 E1 E2 Dp Dm H1 H2 H3. assert (N : E1 <> E2) by (assert (X := in_out _ H3); lra).
  eapply lim_eq; [|exact (direct_d (ph Dp Dm) (diff_phi psi1_im) (phi_even Dp Dm) (phi_d1 Dp Dm) p1 p2 E1 E2 N)].
  unfold D_equal_T. destruct (Rlt_dec (Rabs (E1 - E2)) E_MIN); [lra|]. destruct (Rlt_dec (Rabs 0) E_MIN) as [_|Q]; [|elim Q; apply zero_in].
  rewrite !fermi_in by lra. unfold delta_phi, Rdiv. ring.
Qed.
Theorem C61_direct_both : forall p1 p2 E1 Dp Dm, E1 <= cut / 2 ->
  tends (R * R) (at2 (fun d e => d <> 0 /\ e <> E1) 0 E1) (fun x => direct (ph Dp Dm) p1 p2 E1 (fst x) (snd x)) (DI p1 p2 E1 0 E1 Dp Dm).
Proof.
  intros p1 p2 E1 Dp Dm H1. assert (P := cut_pos).
  eapply lim_eq; [|exact (direct_both (ph Dp Dm) (diff_phi psi1_im) (diff2_phi psi2_re) (phi_even Dp Dm) (phi_d1 Dp Dm) phi_d2 phi_c2 p1 p2 E1)].
  unfold D_equal_T. rewrite Rminus_eq_0. destruct (Rlt_dec (Rabs 0) E_MIN) as [_|Q]; [|elim Q; apply zero_in].
  rewrite !fermi_in, diff_fermi_in by lra. unfold Rdiv. ring.
Qed.
Theorem C61_exchange_equal : forall p1 p2 E1 E2 Dp Dm, E1 <= cut -> E2 <= cut -> E1 + E2 <= cut -> E_MIN <= Rabs (E1 + E2) ->
  tends R (at1 (E1 + E2)) (fun d => exchange (ph Dp Dm) p1 p2 E1 d E2) (XI p1 p2 E1 (E1 + E2) E2 Dp Dm).
Proof.
  intros p1 p2 E1 E2 Dp Dm H1 H2 H3 H4. eapply lim_eq; [|exact (exchange_s (ph Dp Dm) (diff_phi psi1_im) (phi_d1 Dp Dm) p1 p2 E1 E2 (in_out _ H4))].
  unfold X_equal_T. replace (E1 + E2 - E1 - E2) with 0 by ring. destruct (Rlt_dec (Rabs 0) E_MIN) as [_|Q]; [|elim Q; apply zero_in]. destruct (Rlt_dec (Rabs (E1 + E2)) E_MIN); [lra|].
  rewrite !fermi_in, !bose_in by lra. unfold Rdiv. ring.
Qed.
Theorem C61_exchange_zero : forall p1 p2 E1 E2 Dp Dm, E1 <= cut -> E2 <= cut -> E_MIN <= Rabs (E1 + E2) ->
  tends R (at1 0) (fun d => exchange (ph Dp Dm) p1 p2 E1 d E2) (XI p1 p2 E1 0 E2 Dp Dm).
Proof.
  intros p1 p2 E1 E2 Dp Dm H1 H2 H3. eapply lim_eq; [|exact (exchange_d (ph Dp Dm) (diff_phi psi1_im) (phi_even Dp Dm) (phi_d1 Dp Dm) p1 p2 E1 E2 (in_out _ H3))].
  unfold X_equal_T. replace (0 - E1 - E2) with (- (E1 + E2)) by ring. rewrite Rabs_Ropp. destruct (Rlt_dec (Rabs (E1 + E2)) E_MIN); [lra|].
  destruct (Rlt_dec (Rabs 0) E_MIN) as [_|Q]; [|elim Q; apply zero_in].
  rewrite !fermi_in by lra. unfold delta_phi. field. assert (X := in_out _ H3). lra.
Qed.
Theorem C61_exchange_both : forall p1 p2 E1 Dp Dm, Rabs E1 <= cut ->
  tends (R * R) (at2 (fun d e => d <> 0 /\ d - E1 - e <> 0) 0 (- E1)) (fun x => exchange (ph Dp Dm) p1 p2 E1 (fst x) (snd x)) (XI p1 p2 E1 0 (- E1) Dp Dm).
Proof.
  intros p1 p2 E1 Dp Dm H1. assert (HA : - E1 <= cut) by (assert (X := Rle_abs (- E1)); rewrite Rabs_Ropp in X; lra). assert (HB : E1 <= cut) by (assert (X := Rle_abs E1); lra).
  eapply lim_eq; [|exact (exchange_both (ph Dp Dm) (diff_phi psi1_im) (diff2_phi psi2_re) (phi_even Dp Dm) (phi_d1 Dp Dm) phi_d2 phi_c2 p1 p2 E1)].
  unfold X_equal_T. replace (0 - E1 - - E1) with 0 by ring. destruct (Rlt_dec (Rabs 0) E_MIN) as [_|Q]; [|elim Q; apply zero_in].
  rewrite !fermi_in by lra. unfold Rdiv. ring.
Qed.
(** Exchanging the two energies changes nothing. *)
Theorem C61_direct_symmetric : forall p1 p2 E1 d E2 Dp Dm, E_MIN <= Rabs (E1 - E2) -> DI p1 p2 E1 d E2 Dp Dm = DI p1 p2 E2 d E1 Dp Dm.
Proof.
  intros p1 p2 E1 d E2 Dp Dm H. assert (N := in_out _ H). unfold D_equal_T. rewrite (Rabs_minus_sym E2 E1). destruct (Rlt_dec (Rabs (E1 - E2)) E_MIN); [lra|].
  unfold delta_phi. destruct (Rlt_dec (Rabs d) E_MIN); field; lra.
Qed.
Theorem C61_exchange_symmetric : forall p1 p2 E1 d E2 Dp Dm, E_MIN <= Rabs (d - E1 - E2) \/ E_MIN <= Rabs d \/ E2 = - E1 -> XI p1 p2 E1 d E2 Dp Dm = XI p1 p2 E2 d E1 Dp Dm.
Proof.
  intros p1 p2 E1 d E2 Dp Dm H. unfold X_equal_T. replace (d - E2 - E1) with (d - E1 - E2) by ring. rewrite (Rplus_comm E2 E1). unfold delta_phi.
  destruct (Rlt_dec (Rabs (d - E1 - E2)) E_MIN) as [L|L]; destruct (Rlt_dec (Rabs d) E_MIN) as [L'|L']; try (unfold Rdiv; ring).
  destruct H as [H|[H|H]]; [lra|lra|]. subst E2. rewrite Ropp_involutive.
  rewrite (f2_even (ph Dp Dm) (diff_phi psi1_im) (diff2_phi psi2_re) (phi_even Dp Dm) (phi_d1 Dp Dm) phi_d2). ring.
Qed.
(** The callers pass the reduced energies of the two single excitations and of the double excitation. *)
Theorem C61_integralD : forall p1 eta1 E1 E2 E3 T mu1 mu2 D,
  (E1 - mu1) / T <= cut -> (E3 - mu1) / T <= cut -> (E2 - mu1 - eta1 * mu2) / T <= cut -> E_MIN <= Rabs ((E3 - E1) / T) -> E_MIN <= Rabs ((E2 - mu1 - eta1 * mu2) / T) ->
  integralD psi_re psi1_im psi2_re p1 eta1 E1 E2 E3 T mu1 mu2 D =
  PI / T * direct (ph (D / 2 / T) (D / 2 / T)) p1 1 ((E1 - mu1) / T) ((E2 - mu1 - eta1 * mu2) / T) ((E3 - mu1) / T).
Proof.
  intros p1 eta1 E1 E2 E3 T mu1 mu2 D H1 H2 H3 H4 H5. unfold integralD. rewrite C61_direct_general; auto.
  - rewrite direct_sym. set (v := direct _ _ _ _ _ _). unfold Rdiv. ring.
  - replace ((E3 - mu1) / T - (E1 - mu1) / T) with ((E3 - E1) / T) by (unfold Rdiv; ring). exact H4.
Qed.
Theorem C61_integralX : forall p1 eta1 E1 E2 E3 T mu1 mu2 D,
  (E1 - mu1) / T <= cut -> (E3 - eta1 * mu2) / T <= cut -> (E2 - mu1 - eta1 * mu2) / T <= cut -> E_MIN <= Rabs ((E2 - E1 - E3) / T) -> E_MIN <= Rabs ((E2 - mu1 - eta1 * mu2) / T) ->
  integralX psi_re psi1_im psi2_re p1 eta1 E1 E2 E3 T mu1 mu2 D =
  PI / T * exchange (ph (D / 2 / T) (D / 2 / T)) p1 1 ((E1 - mu1) / T) ((E2 - mu1 - eta1 * mu2) / T) ((E3 - eta1 * mu2) / T).
Proof.
  intros p1 eta1 E1 E2 E3 T mu1 mu2 D H1 H2 H3 H4 H5. unfold integralX. rewrite C61_exchange_general; auto.
  - rewrite exchange_sym. set (v := exchange _ _ _ _ _ _). unfold Rdiv. ring.
  - replace ((E2 - mu1 - eta1 * mu2) / T - (E3 - eta1 * mu2) / T - (E1 - mu1) / T) with ((E2 - E1 - E3) / T) by (unfold Rdiv; ring). exact H4.
Qed.
End Phi.

(** A function that meets the contract, at the doubly degenerate point and at a regular one. *)
Example ex_psi : psi_contract (fun y => y * y) (fun y => - (2) * y) (fun _ => - (2)).
Proof.
  constructor.
  - intros y. ring.
  - intros y. refine (deriv_ext _ _ _ _ _ (fun t => eq_refl) _ (derivable_pt_lim_mult id id y 1 1 (derivable_pt_lim_id y) (derivable_pt_lim_id y))). unfold id. ring.
  - intros y. refine (deriv_ext (mult_real_fct (- (2)) id) _ _ (- (2) * 1) _ (fun t => eq_refl) _ (derivable_pt_lim_scal id (- (2)) y 1 (derivable_pt_lim_id y))). ring.
  - intros y eps He. exists 1. split; [lra|]. intros t _. rewrite Rminus_eq_0, Rabs_R0. exact He.
Qed.
Example C61_case :
  let D := D_equal_T (fun y => y * y) (fun y => - (2) * y) (fun _ => - (2)) in let X := X_equal_T (fun y => y * y) (fun y => - (2) * y) (fun _ => - (2)) in
  D 1 1 0 0 0 (2 * PI) (2 * PI) = 1 / (2 * PI * PI) /\ X 1 1 0 0 0 (2 * PI) (2 * PI) = - (1) / (2 * PI * PI) /\
  tends (R * R) (at2 (fun d e => d <> 0 /\ e <> 0) 0 0) (fun x => direct (fun y => phi (fun y => y * y) y (2 * PI) (2 * PI)) 1 1 0 (fst x) (snd x)) (1 / (2 * PI * PI)).
Proof.
  intros D X. assert (P := PI_RGT_0). assert (PH : forall x, phi (fun y => y * y) x (2 * PI) (2 * PI) = - (x / (2 * PI) * (x / (2 * PI)))).
  { intros x. unfold phi. rewrite Rabs_right by lra. replace (/ 2 * (2 * PI + 2 * PI) / (2 * PI)) with 1 by (field; lra). rewrite ln_1. ring. }
  assert (DV : D 1 1 0 0 0 (2 * PI) (2 * PI) = 1 / (2 * PI * PI)).
  { unfold D, D_equal_T. rewrite Rminus_eq_0. destruct (Rlt_dec (Rabs 0) E_MIN) as [_|Q]; [|elim Q; apply zero_in]. rewrite PH. unfold diff_phi, diff2_phi. field. lra. }
  split; [exact DV|]. split.
  - unfold X, X_equal_T. rewrite !Rminus_eq_0. destruct (Rlt_dec (Rabs 0) E_MIN) as [_|Q]; [|elim Q; apply zero_in]. unfold diff_phi, diff2_phi. field. lra.
  - rewrite <- DV. apply (C61_direct_both _ _ _ ex_psi). assert (Q := cut_pos). lra.
Qed.
Print Assumptions C61_direct_general.
Print Assumptions C61_exchange_general.
Print Assumptions C61_direct_equal.
Print Assumptions C61_direct_zero.
Print Assumptions C61_direct_both.
Print Assumptions C61_exchange_equal.
Print Assumptions C61_exchange_zero.
Print Assumptions C61_exchange_both.
Print Assumptions C61_direct_symmetric.
Print Assumptions C61_exchange_symmetric.
Print Assumptions C61_integralD.
Print Assumptions C61_integralX.
