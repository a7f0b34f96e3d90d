(** Charge weighted rows against the currents: 1vN, Redfield and Lindblad. *)
From Coq Require Import String List Arith Lia ZArith Bool Permutation Ring.
From Verif Require Import Base SsqProofs Qn DMIndex DMIndexProofs CRing Layout Kernel KernelProofs PauliProofs CohProofs CohKernels.
Import ListNotations.
Open Scope nat_scope.
Local Notation length := List.length.

Section Cur.
Variable K : CRing.
Local Notation C := (Cx K).
Local Open Scope rng_scope.
Add Ring KrC : (rth K).
Add Ring CrC : (rth (Cx K)).
Variable L : Lay.
Hypothesis LO : layout L.
Variables (phi : Z -> K) (nl : nat).
Local Notation rho := (rho K L phi).
Local Notation gval := (gval K L phi).
Local Notation act := (act K).
Local Notation LS := (leads nl).
Local Notation m2im := (m2im K).

Lemma gated : forall a ap ac (f : C -> C), f 0 = 0 ->
  (if is_included L a ap ac then f (rho a ap ac) else 0) = f (rho a ap ac).
Proof.
  intros. destruct (is_included L a ap ac) eqn:E; auto. rewrite (not_included K L phi a ap ac E). auto.
Qed.

Lemma m2im_sum : forall A (f : A -> C) l, m2im (rsum f l) = rsum (fun x => m2im (f x)) l.
Proof. intros. unfold Kernel.m2im. rewrite rsum_im. symmetry. apply rsum_mul_l. Qed.
Lemma m2im_plus : forall x y : C, m2im (x + y) = m2im x + m2im y.
Proof. intros. unfold Kernel.m2im. rewrite im_add. ring. Qed.
Lemma im_opp : forall x : C, im (- x) = - im x.
Proof. reflexivity. Qed.
Lemma m2im_opp : forall x : C, m2im (- x) = - m2im x.
Proof. intros. unfold Kernel.m2im. rewrite im_opp. ring. Qed.

Section TF.
Variables (T : nat -> nat -> nat -> C) (F : nat -> nat -> bool -> C).
Hypothesis HT : forall l a b, conj (T l a b) = T l b a.

Lemma P1_herm : forall l b a ap, conj (P1 K T l b a ap) = P1 K T l b ap a.
Proof. intros. unfold P1. rewrite conj_mul, !HT. ring. Qed.

(** the amplitude of one link, both directions *)
Definition amp_up (up : Z -> nat -> nat -> nat -> nat -> C) (q : Z) (l c b : nat) : C :=
  rsum (fun bp => P1 K T l c bp b * up q l c bp b * rho bp b q) (states L q).
Definition amp_dn (dn : Z -> nat -> nat -> nat -> nat -> C) (q : Z) (l c b : nat) : C :=
  rsum (fun cp => P1 K T l b c cp * - dn q l b c cp * rho c cp (q + 1)%Z) (states L (q + 1)).

Lemma J_current : forall up dn q, (0 <= q)%Z ->
  im (J K L phi nl (P1 K T) up dn q) =
  rsum (fun l => rsum (fun c => rsum (fun b => m2im (amp_up up q l c b + amp_dn dn q l c b))
                                     (states L q)) (states L (q + 1))) LS.
Proof.
  intros up dn q Hq. rewrite (J_imag K L LO phi nl _ _ _ P1_herm q Hq).
  match goal with |- m2im ?x - m2im ?y = _ => replace (m2im x - m2im y) with (m2im x + m2im (- y))
    by (rewrite m2im_opp; ring) end.
  rewrite <- m2im_plus. rewrite <- rsum_opp, <- rsum_plus. rewrite m2im_sum. apply rsum_ext. intros l _.
  transitivity (m2im (rsum (fun c => rsum (fun b => amp_up up q l c b + amp_dn dn q l c b) (states L q)) (states L (q + 1)))).
  2:{ rewrite m2im_sum. apply rsum_ext. intros c _. apply m2im_sum. }
  f_equal.
  transitivity (rsum (fun c => rsum (fun b => amp_up up q l c b) (states L q)) (states L (q + 1)) +
                rsum (fun c => rsum (fun b => amp_dn dn q l c b) (states L q)) (states L (q + 1))).
  2:{ rewrite <- rsum_plus. apply rsum_ext. intros c _. symmetry. apply rsum_plus. }
  f_equal.
  - apply rsum_ext. intros c _. apply rsum_swap.
  - rewrite <- rsum_opp. symmetry. etransitivity; [apply rsum_swap|]. apply rsum_ext. intros b _.
    rewrite <- rsum_opp. apply rsum_ext. intros c _. unfold amp_dn. rewrite <- rsum_opp. apply rsum_ext.
    intros cp _. ring.
Qed.

Lemma vn1_amp_eq : forall q l c b,
  vn1_amp K L phi T F l c b q = amp_up (vn_up K L F) q l c b + amp_dn (vn_dn K L F) q l c b.
Proof.
  intros. unfold vn1_amp, amp_up, amp_dn, vn_up, vn_dn, P1. f_equal; apply rsum_ext; intros x _.
  - rewrite (gated x b q (fun r => T l b c * T l c x * r * F l (ind1 L c b q) false)); ring.
  - rewrite (gated c x (q + 1)%Z (fun r => T l b c * r * T l x b * F l (ind1 L c b q) true)); ring.
Qed.
Lemma red_amp_eq : forall q l c b,
  red_amp K L phi T F l c b q = amp_up (rd_up K L F) q l c b + amp_dn (rd_dn K L F) q l c b.
Proof.
  intros. unfold red_amp, amp_up, amp_dn, rd_up, rd_dn, P1. f_equal; apply rsum_ext; intros x _.
  - rewrite (gated x b q (fun r => T l b c * T l c x * r * F l (ind1 L c x q) false)); ring.
  - rewrite (gated c x (q + 1)%Z (fun r => T l b c * r * T l x b * F l (ind1 L x b q) true)); ring.
Qed.

Lemma vn1_current_sum : rsum (vn1_current K L phi T F) LS =
  rsum (fun q => im (J K L phi nl (P1 K T) (vn_up K L F) (vn_dn K L F) q)) (charges1 L).
Proof.
  unfold vn1_current. etransitivity; [apply rsum_swap|]. apply rsum_ext. intros q Hq.
  rewrite J_current by (unfold charges1 in Hq; apply in_map_iff in Hq; destruct Hq as (? & <- & _); lia).
  apply rsum_ext. intros l _. rewrite rsum_prod. apply rsum_ext. intros c _. apply rsum_ext. intros b _.
  now rewrite vn1_amp_eq.
Qed.
Lemma red_current_sum : rsum (red_current K L phi T F) LS =
  rsum (fun q => im (J K L phi nl (P1 K T) (rd_up K L F) (rd_dn K L F) q)) (charges1 L).
Proof.
  unfold red_current. etransitivity; [apply rsum_swap|]. apply rsum_ext. intros q Hq.
  rewrite J_current by (unfold charges1 in Hq; apply in_map_iff in Hq; destruct Hq as (? & <- & _); lia).
  apply rsum_ext. intros l _. rewrite rsum_prod. apply rsum_ext. intros c _. apply rsum_ext. intros b _.
  now rewrite red_amp_eq.
Qed.
End TF.

(** *** Lindblad *)
Section Lin.
Variables (h : K) (tL : nat -> nat -> nat -> C) (E : nat -> K).
Local Notation half := (ofR h).
Definition jump (y a ap : nat) : C := rsum (fun l => tL l y a * conj (tL l y ap)) LS.
(** weight carried from the block q to the block q' by the jumps, and lost by the block q *)
Definition gainw (w : nat -> K) (q q' : Z) : C :=
  rsum (fun y => rsum (fun a => rsum (fun ap => ofR (w y) * jump y a ap * rho a ap q) (states L q)) (states L q)) (states L q').
Definition lossw (w : nat -> K) (q q' : Z) : C :=
  rsum (fun y => rsum (fun a => rsum (fun ap => ofR (h * (w a + w ap)) * jump y a ap * rho a ap q) (states L q)) (states L q)) (states L q').

Lemma of_add : forall x y : K, ofR (x + y) = (ofR x + ofR y : C).
Proof. intros. apply cplx_eq; cbn [re im ofR]; [reflexivity|]. change (@r0 K = r0 + r0). ring. Qed.
Lemma of_mul : forall x y : K, ofR (x * y) = (ofR x * ofR y : C).
Proof. intros. apply cplx_eq; rewrite ?re_mul, ?im_mul; cbn [re im ofR]; ring. Qed.
Lemma of_sub : forall x y : K, ofR (x - y) = (ofR x - ofR y : C).
Proof. intros. apply cplx_eq; cbn [re im ofR]; [reflexivity|]. change (@r0 K = r0 - r0). ring. Qed.
Lemma of_opp : forall x : K, ofR (- x) = (- ofR x : C).
Proof. intros. apply cplx_eq; cbn [re im ofR]; [reflexivity|]. change (@r0 K = - r0). ring. Qed.

Lemma lin_in : forall (w : nat -> K) c q,
  rsum (fun b => ofR (w b) * rsum (fun a => rsum (fun ap =>
     Ci K * rsum (fun l => tL l b a * conj (tL l b ap)) LS * rho a ap q) (states L q)) (states L q)) (states L c) =
  Ci K * gainw w q c.
Proof.
  intros. unfold gainw. rewrite <- rsum_mul_l. apply rsum_ext. intros b _. rewrite <- !rsum_mul_l.
  apply rsum_ext. intros a _. rewrite <- !rsum_mul_l. apply rsum_ext. intros ap _. unfold jump. ring.
Qed.

Lemma lin_out : forall (w : nat -> K) c q,
  rsum (fun b => ofR (w b) * rsum (fun bpp =>
      Ci K * rsum (fun y => rsum (fun l => - half * conj (tL l y b) * tL l y bpp) LS) (states L q) * rho bpp b c +
      Ci K * rsum (fun y => rsum (fun l => - half * conj (tL l y bpp) * tL l y b) LS) (states L q) * rho b bpp c)
     (states L c)) (states L c) =
  - (Ci K * lossw w c q).
Proof.
  intros.
  transitivity (rsum (fun b => rsum (fun bpp => - (Ci K * half * ofR (w b)) * (rsum (fun y => jump y bpp b) (states L q) * rho bpp b c)) (states L c)) (states L c) +
                rsum (fun b => rsum (fun bpp => - (Ci K * half * ofR (w b)) * (rsum (fun y => jump y b bpp) (states L q) * rho b bpp c)) (states L c)) (states L c)).
  { rewrite <- rsum_plus. apply rsum_ext. intros b _. rewrite <- rsum_plus, <- rsum_mul_l. apply rsum_ext. intros bpp _.
    rewrite (rsum_ext C _ _ (fun y => - half * jump y bpp b) (states L q)).
    2:{ intros y _. unfold jump. rewrite <- rsum_mul_l. apply rsum_ext. intros; ring. }
    rewrite (rsum_ext C _ (fun y => rsum (fun l => - half * conj (tL l y bpp) * tL l y b) LS) (fun y => - half * jump y b bpp) (states L q)).
    2:{ intros y _. unfold jump. rewrite <- rsum_mul_l. apply rsum_ext. intros; ring. }
    rewrite !rsum_mul_l. ring. }
  rewrite (rsum_swap C _ _ (fun b bpp => - (Ci K * half * ofR (w b)) * (rsum (fun y => jump y bpp b) (states L q) * rho bpp b c))).
  rewrite <- rsum_plus.
  unfold lossw. rewrite <- rsum_mul_l, <- rsum_opp.
  symmetry. etransitivity; [apply rsum_ext; intros y _; rewrite <- rsum_mul_l, <- rsum_opp; reflexivity|].
  etransitivity; [apply rsum_swap|].
  apply rsum_ext. intros a _. rewrite <- rsum_plus.
  etransitivity; [apply rsum_ext; intros y _; rewrite <- rsum_mul_l, <- rsum_opp; reflexivity|].
  etransitivity; [apply rsum_swap|].
  apply rsum_ext. intros ap _.
  rewrite (rsum_ext C _ _ (fun y => - (Ci K * ofR (h * (w a + w ap)) * rho a ap c) * jump y a ap)) by (intros; ring).
  rewrite rsum_mul_l. rewrite of_mul, of_add. ring.
Qed.

Lemma lin_rows : forall (w : nat -> K) c,
  rsum (fun b => ofR (w b) * rsum gval (lindblad_coupling K L nl h tL b b c)) (states L c) =
  Ci K * (gainw w (c - 1) c + gainw w (c + 1) c - lossw w c (c - 1) - lossw w c (c + 1)).
Proof.
  intros.
  transitivity (Ci K * gainw w (c - 1) c + (- (Ci K * lossw w c (c - 1)) + - (Ci K * lossw w c (c + 1))) + Ci K * gainw w (c + 1) c); [|ring].
  rewrite <- (lin_in w c (c - 1)), <- (lin_in w c (c + 1)), <- (lin_out w c (c - 1)), <- (lin_out w c (c + 1)).
  rewrite <- !rsum_plus. apply rsum_ext. intros b _.
  unfold lindblad_coupling. rewrite !rsum_app, !rsum_flat_map, !rsum_prod.
  match goal with |- ?w0 * (?x1 + (?x2 + ?x3)) = ?w0 * ?y1 + (?w0 * ?y2 + ?w0 * ?y3) + ?w0 * ?y4 =>
    assert (H1 : x1 = y1); [|assert (H2 : x2 = y2 + y3); [|assert (H3 : x3 = y4); [|rewrite H1, H2, H3; ring]]] end.
  - apply rsum_ext. intros a _. apply rsum_ext. intros ap _. now rewrite gate1.
  - rewrite <- rsum_plus. apply rsum_ext. intros bpp _. rewrite rsum_app, !gate1. ring.
  - apply rsum_ext. intros a _. apply rsum_ext. intros ap _. now rewrite gate1.
Qed.

Lemma gainw_nil : forall w q q', states L q = [] \/ states L q' = [] -> gainw w q q' = 0.
Proof.
  intros w q q' [H|H]; unfold gainw; rewrite H; cbn [rsum]; auto. apply (rsum_0 C). auto.
Qed.

Lemma lin_total : forall w : nat -> K,
  rsum (fun c => rsum (fun b => w b * act (ly_ndm0r L) (kern_of K L (lindblad_calls K L nl h tL E)) phi (ind0 L b b c))
                      (states L c)) (charges L) =
  re (rsum (fun c => (gainw w c (c - 1) - lossw w c (c - 1)) + (gainw w c (c + 1) - lossw w c (c + 1))) (charges L)).
Proof.
  intros w. unfold lindblad_calls.
  rewrite (diag_rows_weighted K L LO phi E _ (lindblad_ok K L LO nl h tL) w).
  rewrite (rsum_ext C _ _ _ _ (fun c _ => lin_rows w c)). rewrite rsum_mul_l, im_mul. cbn [re im Ci].
  match goal with |- r0 * _ + r1 * re ?x = re ?y => assert (H : x = y); [|rewrite H; ring] end.
  rewrite !rsum_minus, !rsum_plus, !rsum_minus.
  destruct (shift_links C L (fun c => gainw w c (c + 1))) as [S1 S2].
  { apply gainw_nil. left. apply (lo_below L LO). }
  { apply gainw_nil. right. replace (Z.of_nat (ly_ncharge L) - 1 + 1)%Z with (Z.of_nat (ly_ncharge L)) by lia. apply (lo_above L LO). }
  destruct (shift_links C L (fun c => gainw w (c + 1)%Z c)) as [S3 S4].
  { apply gainw_nil. right. apply (lo_below L LO). }
  { apply gainw_nil. left. replace (Z.of_nat (ly_ncharge L) - 1 + 1)%Z with (Z.of_nat (ly_ncharge L)) by lia. apply (lo_above L LO). }
  assert (A1 : rsum (fun c => gainw w (c - 1) c) (charges L) = rsum (fun c => gainw w c (c + 1)) (charges L)).
  { rewrite S2, <- S1. apply rsum_ext. intros c _. now replace (c - 1 + 1)%Z with c by lia. }
  assert (A2 : rsum (fun c => gainw w (c + 1) c) (charges L) = rsum (fun c => gainw w c (c - 1)) (charges L)).
  { rewrite S4, <- S3. apply rsum_ext. intros c _. now replace (c - 1 + 1)%Z with c by lia. }
  rewrite A1, A2. ring.
Qed.

Lemma lin_energy : forall w : nat -> K,
  rsum (lindblad_energy_current K L phi h tL w) LS =
  re (rsum (fun c => (gainw w c (c - 1) - lossw w c (c - 1)) + (gainw w c (c + 1) - lossw w c (c + 1))) (charges L)).
Proof.
  intros w. unfold lindblad_energy_current. etransitivity; [apply rsum_swap|]. rewrite rsum_re. apply rsum_ext. intros c _.
  rewrite (rsum_ext K _ _ (fun l => re (rsum (fun b => rsum (fun bp =>
     rsum (fun y => ofR (w y - h * (w b + w bp)) * (tL l y b * rho b bp c * conj (tL l y bp))) (states L (c - 1)) +
     rsum (fun y => ofR (w y - h * (w b + w bp)) * (tL l y b * rho b bp c * conj (tL l y bp))) (states L (c + 1)))
     (states L c)) (states L c)))).
  2:{ intros l _. rewrite rsum_prod, rsum_re. apply rsum_ext. intros b _. rewrite rsum_re. apply rsum_ext. intros bp _.
      destruct (is_included L b bp c) eqn:I; auto. rewrite (not_included K L phi b bp c I).
      rewrite !(rsum_0 C); [cbn; symmetry; apply (Radd_0_l (rth K))|intros; ring|intros; ring]. }
  rewrite <- rsum_re. f_equal.
  assert (G : forall q, rsum (fun l => rsum (fun b => rsum (fun bp =>
     rsum (fun y => ofR (w y - h * (w b + w bp)) * (tL l y b * rho b bp c * conj (tL l y bp))) (states L q)) (states L c)) (states L c)) LS
     = gainw w c q - lossw w c q).
  { intros q. unfold gainw, lossw. rewrite <- rsum_minus.
    symmetry. etransitivity; [apply rsum_ext; intros y _; rewrite <- rsum_minus; reflexivity|].
    etransitivity; [apply rsum_swap|].
    symmetry. etransitivity; [apply rsum_swap|]. apply rsum_ext. intros b _. etransitivity; [apply rsum_swap|].
    symmetry. etransitivity; [apply rsum_ext; intros y _; rewrite <- rsum_minus; reflexivity|].
    etransitivity; [apply rsum_swap|]. apply rsum_ext. intros bp _.
    symmetry. etransitivity; [apply rsum_swap|]. apply rsum_ext. intros y _.
    unfold jump. rewrite of_sub.
    transitivity (rsum (fun l => (ofR (w y) - ofR (h * (w b + w bp))) * rho b bp c * (tL l y b * conj (tL l y bp))) LS).
    { apply rsum_ext. intros; ring. }
    rewrite rsum_mul_l. ring. }
  rewrite <- (G (c - 1)%Z), <- (G (c + 1)%Z). rewrite <- rsum_plus. apply rsum_ext. intros l _.
  rewrite <- rsum_plus. apply rsum_ext. intros b _. rewrite <- rsum_plus. reflexivity.
Qed.

(** the particle current is the energy current of "one unit of energy per electron" *)
Lemma lin_charge : forall w : nat -> K, h + h = 1 ->
  (forall c a b, (0 <= c)%Z -> In a (states L c) -> In b (states L c) -> w a = w b) ->
  (forall c a b, (0 <= c)%Z -> In a (states L c) -> In b (states L (c + 1)) -> w b = w a + 1) ->
  forall l, lindblad_energy_current K L phi h tL w l = lindblad_current K L phi tL l.
Proof.
  intros w Hh W1 W2 l. unfold lindblad_energy_current, lindblad_current. apply rsum_ext. intros c Hc.
  apply charges_in in Hc. apply rsum_ext. intros (b & bp) Hb. apply in_prod_iff in Hb as (Hb & Hbp).
  destruct (is_included L b bp c); auto. rewrite <- (W1 c b bp) by (auto; lia).
  assert (X : h * (w b + w b) = w b) by (transitivity ((h + h) * w b); [ring|rewrite Hh; ring]). rewrite X.
  f_equal. f_equal; apply rsum_ext; intros y Hy.
  - assert (0 <= c - 1)%Z by (apply (low_nonneg L LO c y); auto; lia).
    rewrite (W2 (c - 1)%Z y b) by (auto; now replace (c - 1 + 1)%Z with c by lia).
    replace (w y - (w y + 1)) with (- (1) : K) by ring. rewrite of_opp.
    change (ofR 1) with (r1 : C). ring.
  - rewrite (W2 c b y) by (auto; lia). replace (w b + 1 - w b) with (1 : K) by ring.
    change (ofR 1) with (r1 : C). ring.
Qed.
Lemma lin_unit : h + h = 1 -> forall l, lindblad_energy_current K L phi h tL (fun _ => 1) l = 0.
Proof.
  intros Hh l. unfold lindblad_energy_current. apply (rsum_0 K). intros c _. apply (rsum_0 K). intros (b & bp) _.
  destruct (is_included L b bp c); auto.
  assert (X : 1 - h * (1 + 1) = (0 : K)) by (transitivity (1 - (h + h)); [ring|rewrite Hh; ring]). rewrite X.
  rewrite !(rsum_0 C); [cbn; apply (Radd_0_l (rth K))| |]; intros; change (ofR 0) with (r0 : C); ring.
Qed.
End Lin.
End Cur.
