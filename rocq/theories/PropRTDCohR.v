(** C55 for real numbers: the inverse gaps with the clipping of RTD.py 904-915, the amplitudes with the functions of
    specfunc.py, and the systems the approach is built for (indexing 'charge', builder/validation.py 62-65). *)
From Coq Require Import String List Arith Lia ZArith Bool Permutation Ring Reals Lra QArith.
From Verif Require Import Base Bits Indexing IndexingProofs RemoveProofs Binom SsqProofs Qn PropIndexing DMIndex DMIndexProofs DMReach PropDMIndex
  CRing Layout Coherences Kernel KernelProofs PauliProofs CohProofs CohKernels CohCurrents PropKernel MatrixFree PropSolve MasterEq PropVN2
  RTDK RTDNd PropRTD MasterUnits PropRTDCoh SpecFunc.
Import ListNotations.
Open Scope nat_scope.
Local Notation length := List.length.

(** ** The systems *)
Theorem C55_all_kept : forall n name si dm, 1 <= n -> ix_of name n = IxCharge \/ ix_of name n = IxLin -> reach KDM n name si dm -> all_kept (lay_of dm).
Proof.
  intros n name si dm Hn Hix R s t c Hc Hs Ht.
  assert (NS : ix_of name n <> IxSsq) by (destruct Hix; congruence).
  destruct (C08_numbering_dm n name si dm Hn NS R) as (D & O & _).
  replace c with (Z.of_nat (Z.to_nat c)) in * by lia. rewrite states_nat in Hs, Ht.
  destruct (Nat.eq_dec s t) as [->|Ne].
  - destruct (D t (Z.to_nat c) Ht) as (k & _ & X & _). rewrite (ind0_dm n name si dm Hn R _ _ _ _ X). lia.
  - destruct (O s t (Z.to_nat c) Hs Ht Ne) as (k & _ & X & _).
    + intros Hz. exfalso. apply reach_reached in R; auto. destruct R as [G _]. rewrite (g_ix _ _ _ G) in Hz. destruct Hix; congruence.
    + rewrite (ind0_dm n name si dm Hn R _ _ _ _ X). lia.
Qed.

(** ** The functions *)
Local Open Scope R_scope.
(** generate_row_inverse_Liouvillian 906-911 *)
Definition minE : R := / 10000000000.
Definition clip (x : R) : R :=
  if Rlt_dec x minE then if Rle_dec 0 x then minE else if Rlt_dec (- minE) x then if Rle_dec x 0 then - minE else x else x else x.
(** specfunc.py phi 247-269 *)
Definition rtd_phi (dg : R -> R) (x Dp Dm : R) : R := - dg (x / (2 * PI)) + ln (1 / 2 * (Rabs Dp + Rabs Dm) / (2 * PI)).

Lemma minE_pos : 0 < minE.
Proof. unfold minE. apply Rinv_0_lt_compat. lra. Qed.
Lemma clip_far : forall x, minE <= Rabs x -> clip x = x.
Proof.
  intros x H. pose proof minE_pos. unfold clip. destruct (Rlt_dec x minE); auto. destruct (Rle_dec 0 x); [rewrite Rabs_right in H by lra; lra|].
  destruct (Rlt_dec (- minE) x); auto. rewrite Rabs_left in H by lra. lra.
Qed.
Lemma clip_near : forall x, 0 < Rabs x < minE -> clip x = if Rlt_dec 0 x then minE else - minE.
Proof.
  intros x (H1 & H2). pose proof minE_pos. unfold clip. destruct (Rlt_dec 0 x).
  - rewrite Rabs_right in H2 by lra. destruct (Rlt_dec x minE); [|lra]. destruct (Rle_dec 0 x); lra.
  - destruct (Req_dec x 0) as [->|]; [rewrite Rabs_R0 in H1; lra|]. rewrite Rabs_left in H2 by lra.
    destruct (Rlt_dec x minE); [|lra]. destruct (Rle_dec 0 x); [lra|]. destruct (Rlt_dec (- minE) x); [|lra]. destruct (Rle_dec x 0); lra.
Qed.
Lemma clip_zero : clip 0 = minE.
Proof. pose proof minE_pos. unfold clip. destruct (Rlt_dec 0 minE); [|lra]. destruct (Rle_dec 0 0); lra. Qed.
Lemma clip_odd : forall x, x <> 0 -> clip (- x) = - clip x.
Proof.
  intros x H. pose proof minE_pos. unfold clip.
  destruct (Rlt_dec (- x) minE), (Rle_dec 0 (- x)), (Rlt_dec (- minE) (- x)), (Rle_dec (- x) 0), (Rlt_dec x minE), (Rle_dec 0 x), (Rlt_dec (- minE) x), (Rle_dec x 0); lra.
Qed.
Lemma clip_nonzero : forall x, clip x <> 0.
Proof.
  intros x. pose proof minE_pos. unfold clip.
  destruct (Rlt_dec x minE), (Rle_dec 0 x), (Rlt_dec (- minE) x), (Rle_dec x 0); lra.
Qed.

Local Notation Cr := (Cx RRing).
Local Notation C_ x y := (@mkC RRing x%R y%R : Cr).
(** the amplitudes of the RTD approach are those of the 1vN approach with itype 1 when the band is symmetric *)
Theorem C55_amplitudes : forall quad dg x mu T Dm Dp, 0 < T -> Rabs Dm = Rabs Dp -> Dm <> 0 -> Rabs ((x - mu) / T) <= cut ->
  let '(cur0, cur1, _, _) := func_1vN quad dg x mu T Dm Dp 1 in
  cur0 = C_ (- rtd_phi dg ((x - mu) / T) (Dm / T) (Dp / T)) (- (PI * fermi_func ((x - mu) / T))) /\
  cur1 = C_ (- rtd_phi dg ((x - mu) / T) (Dm / T) (Dp / T)) (PI * fermi_func (- ((x - mu) / T))).
Proof.
  intros quad dg x mu T Dm Dp HT HD H0 HA. unfold func_1vN, rtd_phi.
  assert (HT' : Rabs T = T) by (apply Rabs_right; lra).
  assert (HDp : Dp <> 0) by (intros ->; rewrite Rabs_R0 in HD; apply H0; destruct (Req_dec Dm 0); auto; apply Rabs_no_R0 in H; lra).
  assert (A : 1 / 2 * (Rabs (Dm / T) + Rabs (Dp / T)) = Rabs (Dm / T)).
  { unfold Rdiv. rewrite !Rabs_mult, <- HD. lra. }
  assert (B : Rabs (Dm / T / (Dp / T)) = 1).
  { replace (Dm / T / (Dp / T)) with (Dm / Dp) by (field; split; lra). unfold Rdiv. rewrite Rabs_mult, Rabs_inv, HD. apply Rinv_r. now apply Rabs_no_R0. }
  assert (S : fermi_func (- ((x - mu) / T)) = 1 - fermi_func ((x - mu) / T)).
  { pose proof (Rabs_def2 _ _ (Rle_lt_trans _ _ (cut + 1) HA ltac:(lra))). 
    assert (- cut <= (x - mu) / T <= cut) by (split; [pose proof (Rle_abs (- ((x - mu) / T))); rewrite Rabs_Ropp in *; lra|pose proof (Rle_abs ((x - mu) / T)); lra]).
    rewrite !fermi_below by lra. pose proof (fermi_sym ((x - mu) / T)). lra. }
  split; apply cplx_eq; simpl.
  - rewrite A. match goal with |- @eq _ ?u ?v => change (@eq R u v) end. lra.
  - match goal with |- @eq _ ?u ?v => change (@eq R u v) end. lra.
  - rewrite A, B, ln_1. match goal with |- @eq _ ?u ?v => change (@eq R u v) end. lra.
  - rewrite S. match goal with |- @eq _ ?u ?v => change (@eq R u v) end. lra.
Qed.

(** ** The approach *)
Section Real.
Local Notation Op := (Op RRing).
Variables (n : nat) (name : string) (si : SI) (dm : DMI).
Hypotheses (Hn : (1 <= n)%nat) (Hix : ix_of name n = IxCharge \/ ix_of name n = IxLin) (RC : reach KDM n name si dm).
Local Notation L := (lay_of dm).
Local Notation N := (charge_of si).
Local Notation SS := (cons_states L).
Variables (nl : nat) (E : nat -> R) (T : nat -> nat -> nat -> Cr) (mu tl dlo dhi : nat -> R) (quad : R -> R -> R -> R) (dg : R -> R).
Hypothesis HT : hermitian RRing T.
Hypothesis HL : forall l, 0 < tl l /\ dlo l <> 0 /\ Rabs (dlo l) = Rabs (dhi l).
Hypothesis HA : forall l s t, In s SS -> In t SS -> N s = S (N t) -> Rabs ((E s - E t - mu l) / tl l) <= cut.
(** the 1vN master equation with the amplitudes of func_1vN, itype 1 *)
Definition f0 (l s t : nat) : Cr := fst (fst (fst (func_1vN quad dg (E s - E t) (mu l) (tl l) (dlo l) (dhi l) 1))).
Definition f1 (l s t : nat) : Cr := snd (fst (fst (func_1vN quad dg (E s - E t) (mu l) (tl l) (dlo l) (dhi l) 1))).
Definition vn1 (X : Op) (l : nat) : Op := vn1_lead RRing SS N T f0 f1 X l.
(** the functions in the RTD approach *)
Definition Ff (l : nat) (x : R) : R := fermi_func ((x - mu l) / tl l).
Definition Fh (l : nat) (x : R) : R := fermi_func (- ((x - mu l) / tl l)).
Definition Fp (l : nat) (x : R) : R := rtd_phi dg ((x - mu l) / tl l) (dlo l / tl l) (dhi l / tl l).
Definition rinv (x : R) : R := 1 / clip x.
Definition correction : nat * (Z * Z) -> R := corr RRing L nl E T PI Ff Fh Fp rinv.

Lemma amps : forall l s t, In s SS -> In t SS -> N s = S (N t) -> f0 l s t = amp0 RRing E PI Ff Fp l s t /\ f1 l s t = amp1 RRing E PI Fh Fp l s t.
Proof.
  intros l s t Hs Ht EN. destruct (HL l) as (H1 & H2 & H3).
  pose proof (C55_amplitudes quad dg (E s - E t) (mu l) (tl l) (dlo l) (dhi l) H1 H3 H2 (HA l s t Hs Ht EN)) as X.
  unfold f0, f1. destruct (func_1vN _ _ _ _ _ _ _ _) as [[[c0 c1] e0] e1]. exact X.
Qed.
Lemma NSsq : ix_of name n <> IxSsq.
Proof. destruct Hix; congruence. Qed.
Lemma vn1_same : forall X l p q, (forall s t, In s SS -> In t SS -> conj (X s t) = X t s) -> In p SS -> In q SS ->
  vn1 X l p q = vn1_lead RRing SS N T (amp0 RRing E PI Ff Fp) (amp1 RRing E PI Fh Fp) X l p q.
Proof.
  intros X l p q HX Hp Hq. unfold vn1.
  assert (NDS : NoDup SS) by exact (ND_SS n name si L Hn NSsq (sys_plain n name si dm RC)).
  assert (TC : forall l s t, conj (T l s t) = T l t s) by exact HT.
  rewrite !(vn1_units RRing SS N T _ _ NDS TC) by auto.
  assert (G0 : forall u v, In u SS -> In v SS -> g0 RRing N f0 f1 l u v = g0 RRing N (amp0 RRing E PI Ff Fp) (amp1 RRing E PI Fh Fp) l u v).
  { intros u v Hu Hv. unfold g0. destruct (Nat.eqb_spec (N u) (S (N v))) as [e|], (Nat.eqb_spec (S (N u)) (N v)) as [e'|]; auto;
      rewrite ?(proj1 (amps l u v Hu Hv e)); auto; rewrite ?(proj2 (amps l v u Hv Hu (eq_sym e'))); auto. }
  assert (G1 : forall u v, In u SS -> In v SS -> g1 RRing N f0 f1 l u v = g1 RRing N (amp0 RRing E PI Ff Fp) (amp1 RRing E PI Fh Fp) l u v).
  { intros u v Hu Hv. unfold g1. destruct (Nat.eqb_spec (N u) (S (N v))) as [e|], (Nat.eqb_spec (S (N u)) (N v)) as [e'|]; auto;
      rewrite ?(proj2 (amps l u v Hu Hv e)); auto; rewrite ?(proj1 (amps l v u Hv Hu (eq_sym e'))); auto. }
  apply (rsum_ext Cr). intros s Hs. apply (rsum_ext Cr). intros t Ht. f_equal. unfold unit_elem. rewrite (G1 s q), (G0 p t) by auto.
  rewrite (rsum_ext Cr _ (fun u => rmul (rmul (T l p u) (T l u s)) (g0 RRing N f0 f1 l u q))
     (fun u => rmul (rmul (T l p u) (T l u s)) (g0 RRing N (amp0 RRing E PI Ff Fp) (amp1 RRing E PI Fh Fp) l u q))) by (intros u Hu; now rewrite G0).
  rewrite (rsum_ext Cr _ (fun u => rmul (rmul (T l t u) (T l u q)) (g1 RRing N f0 f1 l p u))
     (fun u => rmul (rmul (T l t u) (T l u q)) (g1 RRing N (amp0 RRing E PI Ff Fp) (amp1 RRing E PI Fh Fp) l p u))) by (intros u Hu; now rewrite G1).
  reflexivity.
Qed.

(** the probabilities as an operator *)
Definition probs (phi : Z -> R) : Op := fun s t => if Nat.eqb s t then ofR (phi (ind0 L s s (Z.of_nat (N s))) : RRing) else r0.
(** C55: let X be the coherences that make the 1vN equation of the coherences stationary when the leads act on the
    probabilities only; the gaps below 1e-10 count as 1e-10, and pairs of the same energy have no coherence.  Then the
    corrections are the flow into b that the leads make of X. *)
Theorem C55_rtd : forall (phi : Z -> R) (X : Op),
  (forall s t, In s SS -> In t SS -> s = t \/ N s <> N t \/ E s = E t -> X s t = r0) ->
  (forall s t, In s SS -> In t SS -> s <> t -> N s = N t -> E s <> E t ->
     radd (rmul (rmul (ropp (Ci RRing)) (ofR (clip (E s - E t) : RRing))) (X s t)) (rsum (fun l => vn1 (probs phi) l s t) (leads nl)) = r0) ->
  forall l b c, (l < nl)%nat -> (0 <= c)%Z -> In b (states L c) ->
  rsum (fun j => correction (l, (ind0 L b b c, Z.of_nat j)) * phi (Z.of_nat j) : RRing) (seq 0 (ly_npauli L)) = re (vn1 X l b b).
Proof.
  intros phi X H0 H1 l b c Hl Hc Hb.
  set (deg := fun s t => if Req_EM_T (E s) (E t) then true else false).
  set (gp := fun s t => if Req_EM_T (E s) (E t) then 0 else clip (E s - E t)).
  pose proof (sys_plain n name si dm RC) as SY. pose proof (C55_all_kept n name si dm Hn Hix RC) as AK.
  assert (SB : In b SS) by exact (cons_in L (system_layout n name si L Hn NSsq SY) c b Hc Hb).
  assert (PH : forall s t, In s SS -> In t SS -> conj (probs phi s t) = probs phi t s) by exact (diag_herm RRing si L phi).
  assert (HD : forall s t, deg s t = deg t s).
  { intros s t. unfold deg. destruct (Req_EM_T (E s) (E t)), (Req_EM_T (E t) (E s)); auto; lra. }
  assert (HG : forall s t, gp t s = - gp s t).
  { intros s t. unfold gp. destruct (Req_EM_T (E s) (E t)), (Req_EM_T (E t) (E s)); try lra.
    replace (E t - E s) with (- (E s - E t)) by lra. apply clip_odd. lra. }
  assert (HI : forall s t, In s SS -> In t SS -> s <> t -> N s = N t -> deg s t = false -> gp s t * rinv (E s - E t) = 1).
  { intros s t _ _ _ _ D. unfold deg, gp, rinv in *. destruct (Req_EM_T (E s) (E t)); [easy|]. field. apply clip_nonzero. }
  assert (HZ : forall s t, In s SS -> In t SS -> s <> t -> N s = N t -> deg s t = true -> rinv (E t - E s) = rinv (E s - E t)).
  { intros s t _ _ _ _ D. unfold deg in D. destruct (Req_EM_T (E s) (E t)) as [e|]; [|easy]. now rewrite e. }
  assert (HE : eliminated RRing si L nl E T PI Ff Fh Fp phi deg gp X).
  { intros s t Hs Ht. unfold deg, gp. destruct (Nat.eqb_spec s t) as [e|e]; cbn [negb andb]; [now apply H0; auto|].
    destruct (Nat.eqb_spec (N s) (N t)) as [e'|e']; cbn [negb andb]; [|now apply H0; auto].
    destruct (Req_EM_T (E s) (E t)) as [e2|e2]; cbn [negb]; [now apply H0; auto|].
    rewrite <- (H1 s t Hs Ht e e' e2). f_equal. unfold drive. apply (rsum_ext Cr). intros l' _. symmetry. apply (vn1_same (probs phi)); auto. }
  rewrite (vn1_same X l b b); auto.
  - apply (C55_coherences RRing n name si L Hn NSsq SY nl E T PI Ff Fh Fp rinv HT AK phi deg gp HD HG HI HZ); auto.
    intros x Hx. change (x + x = 0)%R in Hx. change (x = 0%R). lra.
  - destruct (C55_exists RRing si L nl E T PI Ff Fh Fp rinv HT phi deg gp HD HG HI) as (Y & _ & HY & U).
    intros s t Hs Ht. rewrite !(U X HE) by auto. now apply HY.
Qed.
(** such an X exists *)
Theorem C55_rtd_exists : forall phi : Z -> R, exists X : Op,
  (forall s t, In s SS -> In t SS -> conj (X s t) = X t s) /\
  (forall s t, In s SS -> In t SS -> s = t \/ N s <> N t \/ E s = E t -> X s t = r0) /\
  (forall s t, In s SS -> In t SS -> s <> t -> N s = N t -> E s <> E t ->
     radd (rmul (rmul (ropp (Ci RRing)) (ofR (clip (E s - E t) : RRing))) (X s t)) (rsum (fun l => vn1 (probs phi) l s t) (leads nl)) = r0).
Proof.
  intros phi.
  set (deg := fun s t => if Req_EM_T (E s) (E t) then true else false).
  set (gp := fun s t => if Req_EM_T (E s) (E t) then 0 else clip (E s - E t)).
  assert (PH : forall s t, In s SS -> In t SS -> conj (probs phi s t) = probs phi t s) by exact (diag_herm RRing si L phi).
  assert (HD : forall s t, deg s t = deg t s).
  { intros s t. unfold deg. destruct (Req_EM_T (E s) (E t)), (Req_EM_T (E t) (E s)); auto; lra. }
  assert (HG : forall s t, gp t s = - gp s t).
  { intros s t. unfold gp. destruct (Req_EM_T (E s) (E t)), (Req_EM_T (E t) (E s)); try lra.
    replace (E t - E s) with (- (E s - E t)) by lra. apply clip_odd. lra. }
  assert (HI : forall s t, In s SS -> In t SS -> s <> t -> N s = N t -> deg s t = false -> gp s t * rinv (E s - E t) = 1).
  { intros s t _ _ _ _ D. unfold deg, gp, rinv in *. destruct (Req_EM_T (E s) (E t)); [easy|]. field. apply clip_nonzero. }
  destruct (C55_exists RRing si L nl E T PI Ff Fh Fp rinv HT phi deg gp HD HG HI) as (X & EX & HX & _).
  exists X. split; auto. unfold eliminated, deg, gp in EX. split.
  - intros s t Hs Ht H. specialize (EX s t Hs Ht). destruct (Nat.eqb_spec s t); cbn [negb andb] in EX; auto.
    destruct (Nat.eqb_spec (N s) (N t)); cbn [negb andb] in EX; auto. destruct (Req_EM_T (E s) (E t)); cbn [negb andb] in EX; auto. exfalso. tauto.
  - intros s t Hs Ht e1 e2 e3. specialize (EX s t Hs Ht). destruct (Nat.eqb_spec s t); [easy|]. destruct (Nat.eqb_spec (N s) (N t)); [|easy].
    destruct (Req_EM_T (E s) (E t)); [easy|]. cbn [negb andb] in EX. rewrite <- EX. f_equal. unfold drive. apply (rsum_ext Cr). intros l' _. apply (vn1_same (probs phi)); auto.
Qed.
End Real.
Print Assumptions C55_coherences.
Print Assumptions C55_first_order.
Print Assumptions C55_kernel.
Print Assumptions C55_exists.
Print Assumptions C55_parts.
Print Assumptions C55_all_kept.
Print Assumptions C55_amplitudes.
Print Assumptions C55_rtd.
Print Assumptions C55_rtd_exists.
Local Close Scope R_scope.

(** the band has to be symmetric: with Dm = -1, Dp = 3 the real parts differ *)
Theorem C55_band_refuted : ~ (forall quad dg x mu T Dm Dp, (0 < T)%R -> (Dm < 0 < Dp)%R ->
  let '(cur0, _, _, _) := func_1vN quad dg x mu T Dm Dp 1 in re cur0 = (- rtd_phi dg ((x - mu) / T) (Dm / T) (Dp / T))%R).
Proof.
  intros H. specialize (H (fun _ _ _ => 0%R) (fun _ => 0%R) 0%R 0%R 1%R (-1)%R 3%R ltac:(lra) ltac:(lra)). unfold func_1vN, rtd_phi in H. simpl in H.
  assert (X : (0 - ln (Rabs (-1 / 1) / (2 * PI)) = - (- 0 + ln (1 / 2 * (Rabs (-1 / 1) + Rabs (3 / 1)) / (2 * PI))))%R) by exact H.
  replace (-1 / 1)%R with (-1)%R in X by lra. replace (3 / 1)%R with 3%R in X by lra.
  rewrite (Rabs_left (-1)), (Rabs_right 3) in X by lra. pose proof PI_RGT_0 as P.
  assert (P1 : (0 < - -1 / (2 * PI))%R) by (apply Rdiv_lt_0_compat; lra).
  assert (P2 : (- -1 / (2 * PI) < 1 / 2 * (- -1 + 3) / (2 * PI))%R).
  { unfold Rdiv. apply Rmult_lt_compat_r; [apply Rinv_0_lt_compat; lra|lra]. }
  pose proof (ln_increasing _ _ P1 P2). lra.
Qed.
Print Assumptions C55_band_refuted.

(** ** An example: two levels, two leads, gap 1, whole numbers *)
Definition z_E (b : nat) : ZRing := (nth b [0; 1; 2; 5] 0)%Z.
Definition z_T (l a b : nat) : Cx ZRing := @mkC ZRing (1 + Z.of_nat l + Z.of_nat (a * b))%Z (Z.of_nat a - Z.of_nat b)%Z.
Definition z_F (s : Z) (l : nat) (x : ZRing) : ZRing := (s + Z.of_nat l + x)%Z.
Definition z_inv (x : ZRing) : ZRing := x.
Definition z_phi (k : Z) : ZRing := (nth (Z.to_nat k) [3; 1; 4; 2] 0)%Z.
Definition z_corr := corr ZRing ex_L 2 z_E z_T 3%Z (z_F 1) (z_F 2) (z_F 5) z_inv.
Definition z_deg (s t : nat) : bool := false.
Definition z_gp (s t : nat) : ZRing := (z_E s - z_E t)%Z.
Definition z_X : Op ZRing := fun s t => match s, t with 1, 2 => @mkC ZRing (-1881)%Z 555%Z | 2, 1 => @mkC ZRing (-1881)%Z (-555)%Z | _, _ => r0 end.
Definition z_lead := vn1_lead ZRing (cons_states ex_L) (charge_of ex_si) z_T (amp0 ZRing z_E 3%Z (z_F 1) (z_F 5)) (amp1 ZRing z_E 3%Z (z_F 2) (z_F 5)).
Example C55_case : hermitian ZRing z_T /\ all_kept ex_L /\ cons_states ex_L = [0; 1; 2; 3] /\
  (forall s t, In s (cons_states ex_L) -> In t (cons_states ex_L) -> s <> t -> charge_of ex_si s = charge_of ex_si t -> z_deg s t = false ->
     (z_gp s t * z_inv (z_E s - z_E t) = 1)%Z) /\
  eliminated ZRing ex_si ex_L 2 z_E z_T 3%Z (z_F 1) (z_F 2) (z_F 5) z_phi z_deg z_gp z_X /\
  map (fun i => map (fun j => z_corr (0, (i, j))) [0; 1; 2; 3]%Z) [0; 1; 2; 3]%Z =
    [[-120; 102132; -96888; 12516]; [118980; -1644528; -44448; 1697436]; [-91260; 36996; 1215336; -1475352]; [-27600; 1505400; -1074000; -234600]]%Z /\
  map (fun b => re (z_lead z_X 0 b b)) [0; 1; 2; 3] = [-260748; 1929492; 1673856; -3342600]%Z.
Proof.
  split; [intros l a b; unfold z_T; apply cplx_eq; simpl; [rewrite (Nat.mul_comm a b); reflexivity|lia]|].
  split; [apply (C55_all_kept 2 "charge" ex_si ex_dm); [lia|left; reflexivity|apply reach_init; reflexivity]|].
  split; [reflexivity|]. split; [|split; [|split; vm_compute; reflexivity]].
  - intros s t Hs Ht Ne En _. change (cons_states ex_L) with [0; 1; 2; 3] in Hs, Ht. unfold z_gp, z_inv.
    destruct Hs as [<-|[<-|[<-|[<-|[]]]]], Ht as [<-|[<-|[<-|[<-|[]]]]]; try congruence; vm_compute in En; try discriminate; reflexivity.
  - intros s t Hs Ht. change (cons_states ex_L) with [0; 1; 2; 3] in Hs, Ht.
    destruct Hs as [<-|[<-|[<-|[<-|[]]]]], Ht as [<-|[<-|[<-|[<-|[]]]]]; vm_compute; reflexivity.
Qed.
(** the theorem in this case: (-120)*3 + 102132*1 + (-96888)*4 + 12516*2 = -260748 *)
Example C55_case_row : rsum (fun j => (z_corr (0%nat, (0, Z.of_nat j)) * z_phi (Z.of_nat j))%Z : ZRing) (seq 0 4) = re (z_lead z_X 0 0 0).
Proof. vm_compute. reflexivity. Qed.

(** ** After remove_coherences *)
(** The element of a removed coherence has the number -1; the handler subtracts npauli and the array access wraps around.
    Three levels, the coherence of states 1 and 3 removed: what belongs to it is added to the coherence of states 2 and 3. *)
Definition c_E (b : nat) : Q := match b with 2 => 1 | 3 => 3 | 5 => 1 | 6 => 2 | _ => 0 end.
Theorem C55_removed_refuted : exists si L, system 3 "charge" si L /\
  ind0 L 1 3 1 = (-1)%Z /\ ind0 L 2 3 1 <> (-1)%Z /\ nd_ind L 1 3 1 = (nd_ind L 2 3 1 - Z.of_nat (n2 L))%Z /\
  forall (K : CRing) (E : nat -> K) (inv : K -> K), lnn K L E inv 1 1 = radd (inv (rsub (E 2) (E 3))) (inv (rsub (E 1) (E 3))).
Proof.
  destruct (remove_coherences (qfar c_E (5 # 2)) (lay_of (snd (call_init KDM 3 "charge")))) as [L|] eqn:EQ; [|vm_compute in EQ; discriminate].
  exists (fst (call_init KDM 3 "charge")), L. split.
  { eapply sys_removed; [apply reach_init; apply surjective_pairing| |apply (Qlt_le_weak 0 (5 # 2)); reflexivity|exact EQ]. vm_compute. lia. }
  vm_compute in EQ. injection EQ as <-. split; [reflexivity|]. split; [vm_compute; discriminate|]. split; [reflexivity|].
  intros K E inv. cbv -[radd rsub r0 car]. 
  assert (Z0 : forall x : K, radd x r0 = x) by (intros; rewrite (Radd_comm (rth K)); apply (Radd_0_l (rth K))).
  now rewrite ?(Radd_0_l (rth K)), !Z0.
Qed.
(** Two levels, the only coherence removed: the arrays are empty and the index is outside (IndexError). *)
Theorem C55_removed_raises_refuted : exists L, system 2 "charge" ex_si L /\ n2 L = 0 /\ nd_ind L 1 2 1 = (-5)%Z.
Proof.
  destruct ex_removed as (L & R & SY & _). exists L. split; auto. vm_compute in R. injection R as <-. auto.
Qed.
Print Assumptions C55_removed_refuted.
Print Assumptions C55_removed_raises_refuted.
