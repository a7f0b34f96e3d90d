(** Property C72: a common shift of the level energies and of the chemical potentials changes nothing in the RTD approach. *)
From Coq Require Import String List Arith Lia ZArith Bool Permutation Ring Reals Lra.
From Verif Require Import Base Bits Indexing DMIndex DMReach PropDMIndex CRing SpecFunc RTDInt RTDGen Layout Kernel PropKernel KernelGen RTDK RTDNd PropRTD KernelProofs PauliProofs PropMaster
  Rates PropRates PropGauge PropRTDBand PropRTDBandInt.
Import ListNotations.
Open Scope nat_scope.
Local Notation length := List.length.

Lemma flat_map_ext_in' : forall A B (f g : A -> list B) l, (forall x, In x l -> f x = g x) -> flat_map f l = flat_map g l.
Proof. induction l; simpl; intros H; auto. rewrite (H a), IHl; auto. Qed.

(** ** Any ring *)
Section Ring.
Variable K : CRing.
Local Notation C := (Cx K).
Local Open Scope rng_scope.
Add Ring KSh : (rth K).
Variables (n : nat) (name : string) (si : SI) (L : Lay).
Hypotheses (Hn : (1 <= n)%nat) (Hix : ix_of name n <> IxSsq) (SY : system n name si L).
Let LO : layout L := system_layout n name si L Hn Hix SY.
Let CH := system_charge n name si L Hn Hix SY.
Local Notation N := (charge_of si).
Variables (nl ns : nat).
Variables (E : nat -> K) (T : nat -> nat -> nat -> C) (tl : nat -> nat -> C) (d : K).
(** the energy of a state with N electrons moves by N d *)
Definition lifted (b : nat) : K := E b + d * rnat K (N b).
Variables (pf : nat -> nat -> bool -> K) (pi h : K) (F Fm ph phm F' Fm' ph' phm' : nat -> K -> K).
Variables (intD intX intD' intX' : Z -> Z -> K -> K -> K -> nat -> nat -> bool -> C).
Variables (is0 lt2 gt3 imgt3 imgt : C -> bool) (inv : K -> K).
(** the functions of a lead and the integrals of two leads with the chemical potentials moved by d *)
Definition moves1 (f f' : nat -> K -> K) : Prop := forall l x, f' l (x + d) = f l x.
Definition movesD : Prop := forall p eta x1 x2 x3 r r' b, eta = 1%Z \/ eta = (-1)%Z ->
  intD' p eta (x1 + d) (x2 + (if (eta =? 1)%Z then d + d else 0)) (x3 + d) r r' b = intD p eta x1 x2 x3 r r' b.
Definition movesX : Prop := forall p eta x1 x2 x3 r r' b, eta = 1%Z \/ eta = (-1)%Z ->
  intX' p eta (x1 + d) (x2 + (if (eta =? 1)%Z then d + d else 0)) (x3 + (if (eta =? 1)%Z then d else - d)) r r' b = intX p eta x1 x2 x3 r r' b.
Hypotheses (MF : moves1 F F') (MFm : moves1 Fm Fm') (MP : moves1 ph ph') (MPm : moves1 phm phm') (MD : movesD) (MX : movesX).
Local Notation E' := lifted.

Definition w (q : Z) : K := d * rnat K (Z.to_nat q).
Lemma w_S : forall q, (0 <= q)%Z -> w (q + 1) = w q + d.
Proof. intros q Hq. unfold w. replace (Z.to_nat (q + 1)) with (S (Z.to_nat q)) by lia. cbn [rnat]. ring. Qed.
Lemma ev0 : forall q b, (0 <= q)%Z -> In b (states L q) -> E' b = E b + w q.
Proof. intros q b Hq Hb. unfold lifted. now rewrite (CH q b). Qed.
Lemma ev1 : forall q b, (0 <= q)%Z -> In b (states L (q + 1)) -> E' b = E b + (w q + d).
Proof. intros q b Hq Hb. rewrite (ev0 (q + 1)) by (auto; lia). now rewrite w_S. Qed.
Lemma ev2 : forall q b, (0 <= q)%Z -> In b (states L (q + 2)) -> E' b = E b + (w q + d + d).
Proof. intros q b Hq Hb. replace (q + 2)%Z with (q + 1 + 1)%Z in Hb by lia. rewrite (ev1 (q + 1)) by (auto; lia). now rewrite w_S. Qed.
Lemma evm : forall q b, (0 <= q)%Z -> In b (states L (q - 1)) -> E' b = E b + (w q - d).
Proof.
  intros q b Hq Hb. destruct (Z.eq_dec q 0) as [->|Hne]; [change (0 - 1)%Z with (-1)%Z in Hb; rewrite (lo_below L LO) in Hb; destruct Hb|].
  rewrite (ev0 (q - 1)) by (auto; lia). replace (w q) with (w (q - 1 + 1)) by (f_equal; lia). rewrite w_S by lia. ring.
Qed.
Ltac known q Hq := repeat match goal with
  | H : In ?x (states L (q + 1)%Z) |- _ => let V := fresh "V" in pose proof (ev1 q x Hq H) as V; clear H
  | H : In ?x (states L (q + 2)%Z) |- _ => let V := fresh "V" in pose proof (ev2 q x Hq H) as V; clear H
  | H : In ?x (states L (q - 1)%Z) |- _ => let V := fresh "V" in pose proof (evm q x Hq H) as V; clear H
  | H : In ?x (states L q) |- _ => let V := fresh "V" in pose proof (ev0 q x Hq H) as V; clear H
  end.
Ltac vals := repeat match goal with V : E' ?x = _ |- context [E' ?x] => rewrite V end.
Lemma d_arg : forall p eta x1 x2 x3 y1 y2 y3 r r' b, eta = 1%Z \/ eta = (-1)%Z -> y1 = x1 + d -> y2 = x2 + (if (eta =? 1)%Z then d + d else 0) -> y3 = x3 + d ->
  intD' p eta y1 y2 y3 r r' b = intD p eta x1 x2 x3 r r' b.
Proof. intros * H -> -> ->. now apply MD. Qed.
Lemma x_arg : forall p eta x1 x2 x3 y1 y2 y3 r r' b, eta = 1%Z \/ eta = (-1)%Z -> y1 = x1 + d -> y2 = x2 + (if (eta =? 1)%Z then d + d else 0) ->
  y3 = x3 + (if (eta =? 1)%Z then d else - d) -> intX' p eta y1 y2 y3 r r' b = intX p eta x1 x2 x3 r r' b.
Proof. intros * H -> -> ->. now apply MX. Qed.
Lemma f_arg : forall f f' l x y, moves1 f f' -> y = x + d -> f' l y = f l x.
Proof. intros f f' l x y M ->. apply M. Qed.
Ltac leaf q Hq := unfold insD, insX; match goal with
  |- (if ?g then [?a] else []) = (if ?g then [?b] else []) => destruct g; [|reflexivity]; apply (f_equal (fun x => [x])) end;
  match goal with |- Add2 K ?r (re (rmul ?t ?a)) _ _ _ _ _ _ = Add2 K ?r (re (rmul ?t ?b)) _ _ _ _ _ _ =>
    assert (Q : a = b); [|now rewrite Q] end;
  first [apply d_arg|apply x_arg]; [auto| | |]; cbn [Z.eqb Pos.eqb]; known q Hq; vals; ring.
Lemma col_same : forall a0 q, (0 <= q)%Z -> In a0 (states L q) ->
  col2 K L nl E' T intD' intX' is0 lt2 gt3 imgt3 a0 q = col2 K L nl E T intD intX is0 lt2 gt3 imgt3 a0 q.
Proof.
  intros a0 q Hq H0. unfold col2. apply flat_map_ext_in'. intros [r0 r1] _. apply flat_map_ext_in'. intros a1p H1.
  destruct (is0 _); [reflexivity|].
  apply f_equal2; [|apply f_equal2; [|apply f_equal2]].
  - apply flat_map_ext_in'. intros a2 H2. destruct (lt2 _); [reflexivity|].
    apply f_equal2; apply flat_map_ext_in'; intros a3 H3; apply f_equal2; leaf q Hq.
  - apply flat_map_ext_in'. intros a2 H2. destruct (lt2 _); [reflexivity|].
    apply f_equal2; apply flat_map_ext_in'; intros a3 H3; apply f_equal2; leaf q Hq.
  - apply flat_map_ext_in'. intros a2 H2. destruct (lt2 _); [reflexivity|].
    apply f_equal2; [|apply f_equal2; [|apply f_equal2]]; apply flat_map_ext_in'; intros a3 H3; leaf q Hq.
  - apply flat_map_ext_in'. intros a2 H2.
    apply f_equal2; [|apply f_equal2; [|apply f_equal2]]; apply flat_map_ext_in'; intros a3 H3; leaf q Hq.
Qed.
Lemma each_same : forall A (f g : nat -> Z -> list A), (forall b c, (0 <= c)%Z -> In b (states L c) -> f b c = g b c) -> each_state L f = each_state L g.
Proof.
  intros A f g H. unfold each_state. apply flat_map_ext_in'. intros c Hc. apply charges_in in Hc. apply flat_map_ext_in'. intros b Hb.
  destruct (is_unique _ _ _ _); [|reflexivity]. apply H; auto. lia.
Qed.
Lemma wdd0_same : wdd0 K L nl E' T pf intD' intX' is0 lt2 gt3 imgt3 = wdd0 K L nl E T pf intD intX is0 lt2 gt3 imgt3.
Proof. unfold wdd0. f_equal. apply each_same. intros b c Hc Hb. now rewrite col_same. Qed.

(** the first-order matrices between populations and coherences *)
Ltac fs q Hq := repeat match goal with
  | |- context [?f ?l ?y] => match f with F' => idtac | Fm' => idtac | ph' => idtac end;
      let g := match f with F' => F | Fm' => Fm | ph' => ph end in
      match y with rsub (E' ?a) (E' ?b) => replace (f l y) with (g l (E a - E b)) by (symmetry; apply f_arg; [assumption|vals; ring]) end end.
Ltac step := match goal with
  | |- flat_map _ _ = flat_map _ _ => apply flat_map_ext_in'; intros
  | |- map _ _ = map _ _ => apply map_ext_in; intros
  | |- _ ++ _ = _ ++ _ => apply f_equal2
  | |- (if ?b then _ else _) = _ => destruct b eqn:?; [try reflexivity|try reflexivity]
  end.
Lemma dn_same : forall a1 b1 c, (0 <= c)%Z -> In a1 (states L c) -> In b1 (states L c) ->
  dn_col K L nl E' T pi F' Fm' ph' a1 b1 c = dn_col K L nl E T pi F Fm ph a1 b1 c.
Proof.
  intros a1 b1 c Hc Ha Hb. unfold dn_col, dphi. cbv zeta. repeat step; known c Hc; apply f_equal; fs c Hc; reflexivity.
Qed.
Lemma nd_same : forall a1 c, (0 <= c)%Z -> In a1 (states L c) ->
  nd_col K L nl E' T pi F' Fm' ph' a1 c = nd_col K L nl E T pi F Fm ph a1 c.
Proof.
  intros a1 c Hc Ha. unfold nd_col, dphi. cbv zeta. repeat step; known c Hc; apply f_equal; fs c Hc; reflexivity.
Qed.
Lemma dn_all_same : dn_all K L nl E' T pi F' Fm' ph' = dn_all K L nl E T pi F Fm ph.
Proof.
  unfold dn_all. apply flat_map_ext_in'. intros c Hc. apply charges_in in Hc. apply flat_map_ext_in'. intros b Hb. apply flat_map_ext_in'. intros bp Hbp.
  destruct (Nat.eqb b bp); [reflexivity|]. apply dn_same; auto; lia.
Qed.
Lemma nd_all_same : nd_all K L nl E' T pi F' Fm' ph' = nd_all K L nl E T pi F Fm ph.
Proof. unfold nd_all. apply each_same. intros b c Hc Hb. now apply nd_same. Qed.
Lemma lnn_same : lnn K L E' inv = lnn K L E inv.
Proof.
  unfold lnn, lnn_tab. replace (lnn_updates K L E' inv) with (lnn_updates K L E inv); [reflexivity|].
  unfold lnn_updates. apply flat_map_ext_in'. intros c Hc. apply charges_in in Hc. assert (Hq : (0 <= c)%Z) by lia. apply flat_map_ext_in'. intros b Hb. apply flat_map_ext_in'. intros bp Hbp.
  destruct (Nat.eqb b bp); [reflexivity|]. known c Hq. replace (E' b - E' bp) with (E b - E bp) by (vals; ring). reflexivity.
Qed.
Lemma corr_same : corr K L nl E' T pi F' Fm' ph' inv = corr K L nl E T pi F Fm ph inv.
Proof.
  unfold corr, wcorr, snd_im, snd_re, re_wdn, im_wdn, re_wnd, im_wnd. now rewrite dn_all_same, nd_all_same, lnn_same.
Qed.
Local Notation kern e f fm p i x := (rtd_kern K L nl e T pf pi f fm p i x is0 lt2 gt3 imgt3 (lnn K L e inv) (snd_im K L nl e T pi f fm p) (snd_re K L nl e T pi f fm p)).
Local Notation current e f fm p i x := (rtd_current K L nl e T pf pi h f fm p i x is0 lt2 gt3 imgt3 (lnn K L e inv) (snd_im K L nl e T pi f fm p) (snd_re K L nl e T pi f fm p)).
Local Notation ecurrent e f fm p pm i x := (rtd_energy_current K L nl ns e T tl pf pi h f fm p pm i x is0 lt2 gt3 imgt3 imgt (lnn K L e inv) (snd_im K L nl e T pi f fm p) (snd_re K L nl e T pi f fm p)).
Lemma wdd_same : forall off x,
  wdd K L nl E' T pf pi F' Fm' ph' intD' intX' is0 lt2 gt3 imgt3 (lnn K L E' inv) (snd_im K L nl E' T pi F' Fm' ph') (snd_re K L nl E' T pi F' Fm' ph') off x =
  wdd K L nl E T pf pi F Fm ph intD intX is0 lt2 gt3 imgt3 (lnn K L E inv) (snd_im K L nl E T pi F Fm ph) (snd_re K L nl E T pi F Fm ph) off x.
Proof. intros off x. unfold wdd. fold (corr K L nl E' T pi F' Fm' ph' inv). fold (corr K L nl E T pi F Fm ph inv). now rewrite wdd0_same, corr_same. Qed.
Theorem C72_kernel : forall off ij, kern E' F' Fm' ph' intD' intX' off ij = kern E F Fm ph intD intX off ij.
Proof. intros off ij. unfold rtd_kern. fold (corr K L nl E' T pi F' Fm' ph' inv). fold (corr K L nl E T pi F Fm ph inv). now rewrite wdd0_same, corr_same. Qed.
Theorem C72_current : forall off phi l, current E' F' Fm' ph' intD' intX' off phi l = current E F Fm ph intD intX off phi l.
Proof.
  intros off phi l. unfold rtd_current, dotv. destruct (Nat.eqb _ _); [|reflexivity]. cbn [option_map]. f_equal. f_equal.
  apply (rsum_ext K). intros k _. f_equal. unfold wdotv. apply (rsum_ext K). intros j _. f_equal. apply wdd_same.
Qed.

(** the energy kernels *)
Lemma e_arg : forall l a b bc, (0 <= bc)%Z -> In b (states L (bc + 1)) -> In a (states L bc) ->
  temp1 K nl ns E' T tl pi ph' phm' l a b = temp1 K nl ns E T tl pi ph phm l a b /\
  temp2 K nl ns E' T tl pi ph' phm' l a b = temp2 K nl ns E T tl pi ph phm l a b.
Proof.
  intros l a b q Hq Hb Ha. known q Hq. unfold temp1, temp2. cbv zeta.
  assert (P : forall l, ph' l (E' b - E' a) = ph l (E b - E a)) by (intros k; apply f_arg; [exact MP|vals; ring]).
  assert (Pm : forall l, phm' l (E' b - E' a) = phm l (E b - E a)) by (intros k; apply f_arg; [exact MPm|vals; ring]).
  split; [now rewrite P, Pm|]. f_equal. apply (rsum_ext K). intros k _. now rewrite P, Pm.
Qed.
Lemma erow_same : forall t t' : nat -> nat -> nat -> K, (forall l a b bc, (0 <= bc)%Z -> In b (states L (bc + 1)) -> In a (states L bc) -> t' l a b = t l a b) ->
  forall b c, (0 <= c)%Z -> In b (states L c) -> erow K L nl t' b c = erow K L nl t b c.
Proof.
  intros t t' H b c Hc Hb. unfold erow. cbv zeta. apply f_equal2; apply flat_map_ext_in'; intros x Hx; apply flat_map_ext_in'; intros l _.
  - destruct (Z.eq_dec c 0) as [->|Hne]; [change (0 - 1)%Z with (-1)%Z in Hx; rewrite (lo_below L LO) in Hx; destruct Hx|].
    rewrite (H l x b (c - 1)%Z); auto; [lia|]. now replace (c - 1 + 1)%Z with c by lia.
  - now rewrite (H l b x c).
Qed.
Lemma we_same : we1 K L nl ns E' T tl pi ph' phm' = we1 K L nl ns E T tl pi ph phm /\ we2 K L nl ns E' T tl pi ph' phm' = we2 K L nl ns E T tl pi ph phm.
Proof.
  unfold we1, we2. split; f_equal; apply each_same; intros b c Hc Hb; apply erow_same; auto; intros l x y q Hq Hy Hx; now apply (e_arg l x y q).
Qed.
Theorem C72_energy : forall off phi l nmany, all_in_order L nmany -> exists x, current E F Fm ph intD intX off phi l = Some x /\
  exists e, ecurrent E F Fm ph phm intD intX off nmany phi l = Some e /\
    ecurrent E' F' Fm' ph' phm' intD' intX' off nmany phi l = Some (option_map (fun y => y + d * x) e).
Proof.
  intros off phi l nmany AL. unfold rtd_current, rtd_energy_current.
  assert (EI : forall e : nat -> K, map (fun b => (1 + 1) * e b) (seq 0 nmany) = map (fun x => (1 + 1) * e (snd x)) (items L)).
  { intros e. rewrite <- AL. unfold items. rewrite !PropVN2.map_flat_map. apply flat_map_ext. intros c. now rewrite map_map. }
  rewrite !(dotv_items K n name si L Hn Hix SY _ _ _ (EI _)).
  rewrite (dotv_items K n name si L Hn Hix SY _ _ _ (ln_items K n name si L Hn Hix SY)). cbn [option_map snd].
  eexists. split; [reflexivity|]. eexists. split; [reflexivity|].
  destruct (im_gamma _ _ _ _ _ _ _); [reflexivity|]. cbn [option_map]. do 2 f_equal. destruct we_same as [-> ->].
  match goal with |- _ * ?a + ?y + ?z = _ * ?b + ?y + ?z + _ * (_ * ?c) => assert (Q : a = b + d * c); [|rewrite Q; ring] end.
  rewrite <- (rsum_mul_l K), <- (rsum_plus K). apply (rsum_ext K). intros q _. rewrite <- (rsum_mul_l K), <- (rsum_plus K). apply (rsum_ext K). intros b _.
  assert (W : forall i, wdotv K L (wdd K L nl E' T pf pi F' Fm' ph' intD' intX' is0 lt2 gt3 imgt3 (lnn K L E' inv) (snd_im K L nl E' T pi F' Fm' ph') (snd_re K L nl E' T pi F' Fm' ph') off) phi l i =
    wdotv K L (wdd K L nl E T pf pi F Fm ph intD intX is0 lt2 gt3 imgt3 (lnn K L E inv) (snd_im K L nl E T pi F Fm ph) (snd_re K L nl E T pi F Fm ph) off) phi l i).
  { intros i. unfold wdotv. apply (rsum_ext K). intros j _. f_equal. apply wdd_same. }
  rewrite W. unfold lifted. ring.
Qed.
End Ring.
Print Assumptions C72_kernel.
Print Assumptions C72_current.
Print Assumptions C72_energy.

(** ** The functions of the code *)
Section Code.
Local Notation Cr := (Cx RRing).
Local Open Scope R_scope.
Variables (psi psi1 : Cr -> Cr) (psi_re psi1_im psi2_re : R -> R).
Lemma D_with_arg : forall lg p1 p2 z1 z2 z3 T1 T2 mu1 mu2 y1 y2 y3 nu1 nu2 Dp Dm bR,
  y1 + nu1 = z1 + mu1 -> y2 + nu1 + nu2 = z2 + mu1 + mu2 -> y3 + nu1 = z3 + mu1 ->
  D_with psi psi1 lg p1 p2 y1 y2 y3 T1 T2 nu1 nu2 Dp Dm bR = D_with psi psi1 lg p1 p2 z1 z2 z3 T1 T2 mu1 mu2 Dp Dm bR.
Proof.
  intros * H1 H2 H3. unfold D_with, D_second. rewrite H1, H3. replace (y3 / T1 - y1 / T1) with (z3 / T1 - z1 / T1) by (unfold Rdiv; nra).
  replace (rsum (D_pole psi lg y1 y2 y3 T1 T2 nu1 nu2)) with (rsum (D_pole psi lg z1 z2 z3 T1 T2 mu1 mu2)); [reflexivity|].
  apply FunctionalExtensionality.functional_extensionality. intros l. apply (rsum_ext Cr). intros nr _. unfold D_pole. now rewrite H1, H2, H3.
Qed.
Lemma X_int_arg : forall p1 p2 z1 z2 z3 T1 T2 mu1 mu2 y1 y2 y3 nu1 nu2 Dp Dm bR,
  y1 + nu1 = z1 + mu1 -> y2 + nu1 + nu2 = z2 + mu1 + mu2 -> y3 + nu2 = z3 + mu2 ->
  X_integral psi p1 p2 y1 y2 y3 T1 T2 nu1 nu2 Dp Dm bR = X_integral psi p1 p2 z1 z2 z3 T1 T2 mu1 mu2 Dp Dm bR.
Proof.
  intros * H1 H2 H3. unfold X_integral.
  replace (rsum (X_pole psi y1 y2 y3 T1 T2 nu1 nu2)) with (rsum (X_pole psi z1 z2 z3 T1 T2 mu1 mu2)); [reflexivity|].
  apply FunctionalExtensionality.functional_extensionality. intros l. apply (rsum_ext Cr). intros nr _. unfold X_pole.
  replace (- y2 + y3 - nu1) with (- z2 + z3 - mu1) by lra. now rewrite H1, H2, H3.
Qed.
Variables (tm mu : nat -> R) (d : R) (dl dl' : nat -> R * R) (bR : list (R * R)).
Definition moved_mu (l : nat) : R := mu l + d.
(** the width that phi and the integrals use *)
Hypothesis WI : forall l, RTDGen.band dl' l = RTDGen.band dl l.
Lemma code_D : movesD RRing d (rtd_D psi psi1 psi_re psi1_im psi2_re tm mu dl bR) (rtd_D psi psi1 psi_re psi1_im psi2_re tm moved_mu dl' bR).
Proof.
  intros p eta x1 x2 x3 r r' b He. unfold rtd_D, integralD_any, D_integral, integralD. rewrite WI. unfold moved_mu. change (@radd RRing) with Rplus.
  set (x2' := x2 + _). assert (Q : x2' - (mu r + d) - IZR eta * (mu r' + d) = x2 - mu r - IZR eta * mu r').
  { unfold x2'. destruct He as [-> | ->]; cbn [Z.eqb Pos.eqb]; change (@r0 RRing) with 0; lra. }
  rewrite (D_with_arg _ 1 (IZR p) (- x1) (- x2) (- x3) (tm r) (tm r') (mu r) (IZR eta * mu r') (- (x1 + d)) (- x2') (- (x3 + d)) (mu r + d) (IZR eta * (mu r' + d))) by lra.
  replace (x3 + d - (mu r + d)) with (x3 - mu r) by ring. replace (x1 + d - (mu r + d)) with (x1 - mu r) by ring. rewrite Q. reflexivity.
Qed.
Lemma code_X : movesX RRing d (rtd_X psi psi_re psi1_im psi2_re tm mu dl bR) (rtd_X psi psi_re psi1_im psi2_re tm moved_mu dl' bR).
Proof.
  intros p eta x1 x2 x3 r r' b He. unfold rtd_X, integralX_any, integralX. rewrite WI. unfold moved_mu. change (@radd RRing) with Rplus.
  set (x2' := x2 + _). assert (Q : x2' - (mu r + d) - IZR eta * (mu r' + d) = x2 - mu r - IZR eta * mu r').
  { unfold x2'. destruct He as [-> | ->]; cbn [Z.eqb Pos.eqb]; change (@r0 RRing) with 0; lra. }
  set (x3' := x3 + _). assert (Q3 : x3' - IZR eta * (mu r' + d) = x3 - IZR eta * mu r').
  { unfold x3'. destruct He as [-> | ->]; cbn [Z.eqb Pos.eqb]; change (@ropp RRing) with Ropp; lra. }
  rewrite (X_int_arg 1 (IZR p) (- x1) (- x2) (- x3) (tm r) (tm r') (mu r) (IZR eta * mu r') (- (x1 + d)) (- x2') (- x3') (mu r + d) (IZR eta * (mu r' + d))) by lra.
  replace (x1 + d - (mu r + d)) with (x1 - mu r) by ring. rewrite Q, Q3. reflexivity.
Qed.
Lemma phi_width : forall x l, phi psi_re x (fst (dl' l) / tm l) (snd (dl' l) / tm l) = phi psi_re x (fst (dl l) / tm l) (snd (dl l) / tm l).
Proof.
  intros x l. unfold phi. do 2 f_equal. do 2 f_equal. pose proof (WI l) as Q. unfold RTDGen.band in Q.
  unfold Rdiv. rewrite !Rabs_mult. nra.
Qed.
Lemma code_1 : moves1 RRing d (rtd_F tm mu) (rtd_F tm moved_mu) /\ moves1 RRing d (rtd_Fm tm mu) (rtd_Fm tm moved_mu) /\
  moves1 RRing d (rtd_phi psi_re tm mu dl) (rtd_phi psi_re tm moved_mu dl') /\ moves1 RRing d (rtd_phim psi_re tm mu dl) (rtd_phim psi_re tm moved_mu dl').
Proof.
  assert (Q : forall l x, @radd RRing x d - moved_mu l = x - mu l) by (intros; unfold moved_mu; change (@radd RRing) with Rplus; ring).
  split; [|split; [|split]]; intros l x; unfold rtd_F, rtd_Fm, rtd_phi, rtd_phim; rewrite Q; try rewrite phi_width; reflexivity.
Qed.
End Code.

Section Systems.
Local Notation Cr := (Cx RRing).
Local Open Scope R_scope.
Variables (n : nat) (name : string) (si : SI) (L : Lay).
Hypotheses (Hn : (1 <= n)%nat) (Hix : ix_of name n <> IxSsq) (SY : system n name si L).
Variables (psi psi1 : Cr -> Cr) (psi_re psi1_im psi2_re : R -> R).
Variables (nl ns : nat) (T : nat -> nat -> nat -> Cr) (tl : nat -> nat -> Cr) (E tm mu : nat -> R) (dl : nat -> R * R) (it : nat) (bR : list (R * R)).
Variables (tmax : R) (inv : R -> R) (imgt : Cr -> bool).
(** everything generate_kern and generate_current of RTD.py hand out, for a dot with energies e and leads with chemical potentials m and band edges b *)
Definition rtd_table (e m : nat -> R) (b : nat -> R * R) := pauli_fct L nl T e m tm (fun l => fst (b l)) (fun l => snd (b l)) it.
Definition rtd_K (e m : nat -> R) (b : nat -> R * R) : bool -> Z * Z -> R :=
  code_kern psi_re L nl T tm m tmax e (rtd_table e m b) inv b (rtd_D psi psi1 psi_re psi1_im psi2_re tm m b bR) (rtd_X psi psi_re psi1_im psi2_re tm m b bR).
Definition rtd_I (e m : nat -> R) (b : nat -> R * R) : bool -> (Z -> R) -> nat -> option R :=
  code_current psi_re L nl T tm m tmax e (rtd_table e m b) inv b (rtd_D psi psi1 psi_re psi1_im psi2_re tm m b bR) (rtd_X psi psi_re psi1_im psi2_re tm m b bR).
Definition rtd_J (e m : nat -> R) (b : nat -> R * R) : bool -> nat -> (Z -> R) -> nat -> option (option R) :=
  code_energy_current psi_re L nl T tm m tmax ns e tl (rtd_table e m b) inv imgt b
    (rtd_D psi psi1 psi_re psi1_im psi2_re tm m b bR) (rtd_X psi psi_re psi1_im psi2_re tm m b bR).
Lemma rnat_INR : forall k, rnat RRing k = INR k.
Proof. induction k as [|k IH]; [reflexivity|]. cbn [rnat]. rewrite IH, S_INR. reflexivity. Qed.
Variable d : R.
Local Notation E' := (fun b => E b + d * INR (charge_of si b)).
Local Notation mu' := (fun l => mu l + d).
Local Notation dl' := (fun l => (edge it d (fst (dl l)), edge it d (snd (dl l)))).
(** zero lies in the band before and after the shift; nothing is asked of itype 1 and 3, where the edges stay *)
Hypothesis ZB : forall l, (it = 1 \/ it = 3)%nat \/ (fst (dl l) <= 0 <= snd (dl l) /\ fst (dl l) + d <= 0 <= snd (dl l) + d).
Lemma same_width : forall l, RTDGen.band dl' l = RTDGen.band dl l.
Proof.
  intros l. unfold RTDGen.band, edge. cbn [fst snd]. destruct (ZB l) as [[-> | ->]|(A & B)]; [reflexivity|reflexivity|].
  destruct ((it =? 1) || (it =? 3))%nat; [reflexivity|].
  rewrite (Rabs_right (snd (dl l) + d)), (Rabs_left1 (fst (dl l) + d)), (Rabs_right (snd (dl l))), (Rabs_left1 (fst (dl l))) by lra. lra.
Qed.
Theorem C72_code :
  (forall off ij, rtd_K E' mu' dl' off ij = rtd_K E mu dl off ij) /\
  (forall off phi l, rtd_I E' mu' dl' off phi l = rtd_I E mu dl off phi l) /\
  (forall off phi l nmany, all_in_order L nmany -> exists x, rtd_I E mu dl off phi l = Some x /\
    exists e, rtd_J E mu dl off nmany phi l = Some e /\ rtd_J E' mu' dl' off nmany phi l = Some (option_map (fun y => y + d * x) e)).
Proof.
  pose proof (pauli_same n name si L Hn Hix SY nl T E mu tm (fun l => fst (dl l)) (fun l => snd (dl l)) it (fun _ _ _ => 0) (fun _ => 0) d) as PS.
  assert (PT : rtd_table E' mu' dl' = rtd_table E mu dl) by exact PS.
  assert (EE : (fun b => E b + d * INR (charge_of si b)) = lifted RRing si E d).
  { apply FunctionalExtensionality.functional_extensionality. intros b. unfold lifted. now rewrite rnat_INR. }
  destruct (code_1 psi_re tm mu d dl dl' same_width) as (M1 & M2 & M3 & M4).
  pose proof (code_D psi psi1 psi_re psi1_im psi2_re tm mu d dl dl' bR same_width) as MD.
  pose proof (code_X psi psi_re psi1_im psi2_re tm mu d dl dl' bR same_width) as MX.
  unfold rtd_K, rtd_I, rtd_J. rewrite PT. rewrite EE. split; [|split].
  - intros off ij. unfold code_kern. apply (C72_kernel RRing n name si L Hn Hix SY nl E T d); assumption.
  - intros off phi l. unfold code_current. apply (C72_current RRing n name si L Hn Hix SY nl E T d); assumption.
  - intros off phi l nmany AL. unfold code_current, code_energy_current. apply (C72_energy RRing n name si L Hn Hix SY nl ns E T tl d); assumption.
Qed.
End Systems.
Print Assumptions C72_code.

From Verif Require Import Operators PropOperators PropRTDBandAll.
(** *** Example: two levels, two leads, complex amplitudes; functions that read all their arguments *)
Definition sh_D (m : Z) (p eta : Z) (x1 x2 x3 : ZRing) (r r' : nat) (f : bool) : Cx ZRing :=
  let e1 := (x1 - m)%Z in let e2 := (x2 - m - eta * m)%Z in let e3 := (x3 - m)%Z in
  ZC (p * e1 + eta * e2 * e2 - e3 * Z.of_nat r) (e1 * e3 + Z.of_nat r' * e2).
Definition sh_X (m : Z) (p eta : Z) (x1 x2 x3 : ZRing) (r r' : nat) (f : bool) : Cx ZRing :=
  let e1 := (x1 - m)%Z in let e2 := (x2 - m - eta * m)%Z in let e3 := (x3 - eta * m)%Z in
  ZC (e1 - p * e2 * e3 + Z.of_nat r) (e3 * e3 - eta * e1 * Z.of_nat r').
Definition sh_f (m : Z) (l : nat) (x : ZRing) : ZRing := (x - m - Z.of_nat l)%Z.
Definition sh_kern (e : nat -> Z) (m : Z) (ij : Z * Z) : Z :=
  let F := sh_f m in let Fm := (fun l x => 2 - sh_f m l x)%Z in let ph := (fun l x => sh_f m l x * sh_f m l x)%Z in
  rtd_kern ZRing ex_L 2 e b_T (fun _ _ _ => 1%Z) 3%Z F Fm ph (sh_D m) (sh_X m)
    zis0 zis0 (fun z => negb (zis0 z)) (fun z => negb (Z.eqb (im z) 0)) (lnn ZRing ex_L e (fun x => x))
    (snd_im ZRing ex_L 2 e b_T 3%Z F Fm ph) (snd_re ZRing ex_L 2 e b_T 3%Z F Fm ph) true ij.
Example C72_case :
  let e := fun a => nth a [0; 1; 4; 6]%Z 0%Z in let e' := fun a => nth a [0; 8; 11; 20]%Z 0%Z in
  let all := list_prod [0; 1; 2; 3]%Z [0; 1; 2; 3]%Z in
  movesD ZRing 7%Z (sh_D 2) (sh_D 9) /\ movesX ZRing 7%Z (sh_X 2) (sh_X 9) /\ moves1 ZRing 7%Z (sh_f 2) (sh_f 9) /\
  map e' [0; 1; 2; 3] = map (lifted ZRing ex_si e 7%Z) [0; 1; 2; 3] /\
  map (sh_kern e' 9) all = map (sh_kern e 2) all /\ map (sh_kern e' 2) all <> map (sh_kern e 2) all.
Proof.
  cbv zeta. split; [|split; [|split; [|split; [|split]]]].
  - intros p eta x1 x2 x3 r r' b [-> | ->]; unfold sh_D; change (@radd ZRing) with Z.add; change (@r0 ZRing) with 0%Z; cbn [Z.eqb Pos.eqb];
      f_equal; ring.
  - intros p eta x1 x2 x3 r r' b [-> | ->]; unfold sh_X; change (@radd ZRing) with Z.add; change (@ropp ZRing) with Z.opp; change (@r0 ZRing) with 0%Z; cbn [Z.eqb Pos.eqb];
      f_equal; ring.
  - intros l x. unfold sh_f. change (@radd ZRing) with Z.add. match goal with |- @eq _ ?u ?v => change (@eq Z u v) end. ring.
  - vm_compute. reflexivity.
  - vm_compute. reflexivity.
  - vm_compute. discriminate.
Qed.
