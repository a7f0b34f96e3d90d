(** Property C59: the iteration of the 2vN approach solves the equations for the first-order density matrix from which the second-order
    elements have been eliminated. *)
From Coq Require Import String List Arith Lia ZArith Bool Reals Lra Ring FunctionalExtensionality.
From Verif Require Import Base DMIndex CRing Layout Kernel Rates VN2K Integrals Hilbert HilbertProofs PropHilbert VN2Grid VN2Iter PropVN2 VN2Eq PropVN2Grid VN2Solve.
Import ListNotations.
Local Notation length := List.length.
Local Notation Cr := (Cx RRing).
Local Open Scope R_scope.
Add Ring Crring2 : (rth (Cx RRing)).
Local Notation crs f l := (@rsum (Cx RRing) nat f l).

(** ** Specification: the integral of u(E')/(x - E' + i0) (with -i0 for s = false) *)
(** for a function given by its values at [n] grid points that are the points kl, ..., kl + n - 1 of an extended grid; linear between the
    points of the extended grid, zero outside *)
Definition padded (n kl kr : nat) (u : nat -> Cr) : list Cr := pad r0 kl kr (map u (seq 0 n)).
Definition hil (n kl kr : nat) (u : nat -> Cr) : list Cr :=
  match hilbert_with (padded n kl kr u) (kernel_fredriksen (n + kl + kr)) with Some r => r | None => [] end.
Definition ints (n kl kr : nat) (grid : list R) (s : bool) (x : R) (u : nat -> Cr) : Cr :=
  if outside grid x then r0
  else csc PI (if s then rsub (interp grid (hil n kl kr u) x) (rmul (Ci RRing) (interp grid (padded n kl kr u) x))
               else radd (interp grid (hil n kl kr u) x) (rmul (Ci RRing) (interp grid (padded n kl kr u) x))).

Section Functional.
Variables (n kl kr : nat) (grid : list R).
Let N := (n + kl + kr)%nat.
Local Notation P := (padded n kl kr). Local Notation H := (hil n kl kr).
Lemma padded_length : forall u, length (P u) = N.
Proof. intros. unfold padded. rewrite pad_length, map_length, seq_length. reflexivity. Qed.
Lemma nth_repeat0 : forall m j, nth j (repeat (@r0 Cr) m) r0 = r0.
Proof. induction m as [|m IH]; intros [|j]; simpl; auto. Qed.
Lemma padded_nth : forall u j, nth j (P u) r0 = if (kl <=? j)%nat && (j <? kl + n)%nat then u (j - kl)%nat else r0.
Proof.
  intros u j. unfold padded, pad. destruct (Nat.leb_spec kl j) as [A|A]; simpl.
  - rewrite app_nth2 by (rewrite repeat_length; lia). rewrite repeat_length. destruct (Nat.ltb_spec j (kl + n)) as [B|B].
    + rewrite app_nth1 by (rewrite map_length, seq_length; lia). rewrite nth_map_seq by lia. reflexivity.
    + rewrite app_nth2 by (rewrite map_length, seq_length; lia). apply nth_repeat0.
  - rewrite app_nth1 by (rewrite repeat_length; lia). apply nth_repeat0.
Qed.
Lemma hil_length : forall u, length (H u) = N.
Proof.
  intros u. unfold hil. destruct (Nat.eq_dec N 0) as [Q|Q].
  - assert (L0 := padded_length u). rewrite Q in L0. destruct (P u); [|discriminate L0].
    unfold hilbert_with. simpl. rewrite Q. reflexivity.
  - assert (L0 := padded_length u). destruct (hilbert_sum (P u) 0%nat ltac:(lia)) as (r & E & Lr & _).
    rewrite L0 in E. fold N. rewrite E. lia.
Qed.
Lemma hil_nth : forall u j, (j < N)%nat -> nth j (H u) r0 = crs (fun k => rmul (nth k (P u) r0) (cR (kappa (Z.of_nat j - Z.of_nat k) / PI))) (seq 0 N).
Proof.
  intros u j Hj. unfold hil. assert (L0 := padded_length u). destruct (hilbert_sum (P u) j ltac:(lia)) as (r & E & Lr & V).
  rewrite L0 in E, V. fold N. rewrite E. exact V.
Qed.
Lemma hil_over : forall u j, (N <= j)%nat -> nth j (H u) r0 = r0.
Proof. intros. apply nth_overflow. rewrite hil_length. auto. Qed.
(** linear in the function *)
Lemma P_add : forall u v j, nth j (P (fun k => radd (u k) (v k))) r0 = radd (nth j (P u) r0) (nth j (P v) r0).
Proof. intros. rewrite !padded_nth. destruct (_ && _); [reflexivity|ring]. Qed.
Lemma P_mul : forall a u j, nth j (P (fun k => rmul a (u k))) r0 = rmul a (nth j (P u) r0).
Proof. intros. rewrite !padded_nth. destruct (_ && _); [reflexivity|ring]. Qed.
Lemma P_conj : forall u j, nth j (P (fun k => conj (u k))) r0 = conj (nth j (P u) r0).
Proof. intros. rewrite !padded_nth. destruct (_ && _); [reflexivity|]. apply cplx_eq; simpl; ring. Qed.
Lemma H_add : forall u v j, nth j (H (fun k => radd (u k) (v k))) r0 = radd (nth j (H u) r0) (nth j (H v) r0).
Proof.
  intros u v j. destruct (Nat.lt_ge_cases j N) as [A|A]; [|rewrite !hil_over by auto; ring].
  rewrite !hil_nth by auto. rewrite <- (rsum_plus Cr). apply (rsum_ext Cr). intros k _. rewrite P_add. ring.
Qed.
Lemma H_mul : forall a u j, nth j (H (fun k => rmul a (u k))) r0 = rmul a (nth j (H u) r0).
Proof.
  intros a u j. destruct (Nat.lt_ge_cases j N) as [A|A]; [|rewrite !hil_over by auto; ring].
  rewrite !hil_nth by auto. rewrite <- (rsum_mul_l Cr). apply (rsum_ext Cr). intros k _. rewrite P_mul. ring.
Qed.
Lemma H_conj : forall u j, nth j (H (fun k => conj (u k))) r0 = conj (nth j (H u) r0).
Proof.
  intros u j. destruct (Nat.lt_ge_cases j N) as [A|A]; [|rewrite !hil_over by auto; apply cplx_eq; simpl; ring].
  rewrite !hil_nth by auto. rewrite (rsum_conj RRing). apply (rsum_ext Cr). intros k _. rewrite P_conj, conj_mul. f_equal. apply cplx_eq; simpl; ring.
Qed.
Lemma padded_ext : forall u v, (forall k, (k < n)%nat -> u k = v k) -> P u = P v.
Proof. intros u v HE. unfold padded. f_equal. apply map_ext_in. intros k Hk. apply in_seq in Hk. apply HE. lia. Qed.
Lemma csc_add : forall x a b, csc x (radd a b) = radd (csc x a) (csc x b).
Proof. intros. apply cplx_eq; simpl; ring. Qed.
Lemma csc_mul : forall x a b, csc x (rmul a b) = rmul a (csc x b).
Proof. intros. apply cplx_eq; simpl; ring. Qed.
Lemma csc_conj : forall x a, csc x (conj a) = conj (csc x a).
Proof. intros. apply cplx_eq; simpl; ring. Qed.
Lemma csc_sub : forall x a b, csc x (rsub a b) = rsub (csc x a) (csc x b).
Proof. intros. apply cplx_eq; simpl; ring. Qed.
Lemma interp_add : forall f f1 f2 x, (forall j, nth j f r0 = radd (nth j f1 r0) (nth j f2 r0)) -> interp grid f x = radd (interp grid f1 x) (interp grid f2 x).
Proof. intros f f1 f2 x A. unfold interp. rewrite !A. rewrite !csc_sub, !csc_add. ring. Qed.
Lemma interp_mul : forall a f f1 x, (forall j, nth j f r0 = rmul a (nth j f1 r0)) -> interp grid f x = rmul a (interp grid f1 x).
Proof. intros a f f1 x A. unfold interp. rewrite !A. rewrite !csc_sub, !csc_mul. ring. Qed.
Lemma conj_sub' : forall a b : Cr, conj (rsub a b) = rsub (conj a) (conj b).
Proof. intros. apply cplx_eq; simpl; ring. Qed.
Lemma interp_conj : forall f f1 x, (forall j, nth j f r0 = conj (nth j f1 r0)) -> interp grid f x = conj (interp grid f1 x).
Proof. intros f f1 x A. unfold interp. rewrite !A. rewrite conj_add, <- !csc_conj, !conj_sub', <- !csc_conj. reflexivity. Qed.
Local Notation I := (ints n kl kr grid).
Lemma ints_ext : forall s x u v, (forall k, (k < n)%nat -> u k = v k) -> I s x u = I s x v.
Proof. intros s x u v E. unfold ints, hil. now rewrite (padded_ext u v E). Qed.
Lemma ints_add : forall s x u v, I s x (fun k => radd (u k) (v k)) = radd (I s x u) (I s x v).
Proof.
  intros. unfold ints. destruct (outside grid x); [ring|]. rewrite (interp_add _ (H u) (H v) x (H_add u v)), (interp_add _ (P u) (P v) x (P_add u v)).
  rewrite <- csc_add. f_equal. destruct s; ring.
Qed.
Lemma ints_mul : forall s x a u, I s x (fun k => rmul a (u k)) = rmul a (I s x u).
Proof.
  intros. unfold ints. destruct (outside grid x); [ring|]. rewrite (interp_mul a _ (H u) x (H_mul a u)), (interp_mul a _ (P u) x (P_mul a u)).
  rewrite <- csc_mul. f_equal. destruct s; ring.
Qed.
Lemma ints_conj : forall s x u, I s x (fun k => conj (u k)) = conj (I (negb s) x u).
Proof.
  intros. unfold ints. destruct (outside grid x); [apply cplx_eq; simpl; ring|].
  rewrite (interp_conj _ (H u) x (H_conj u)), (interp_conj _ (P u) x (P_conj u)). rewrite <- csc_conj. f_equal.
  destruct s; cbn [negb]; apply cplx_eq; simpl; ring.
Qed.
Lemma map_pad : forall A B (g : A -> B) z (f : list A), map g (pad z kl kr f) = pad (g z) kl kr (map g f).
Proof.
  intros A B g z f. unfold pad. rewrite !map_app. assert (RP : forall m, map g (repeat z m) = repeat (g z) m) by (induction m as [|m IH]; simpl; [reflexivity|now rewrite IH]).
  now rewrite !RP.
Qed.
(** func_2vN and get_at_k1 *)
Variable ker : list Cr.
Hypothesis HK : ker = kernel_fredriksen N.
Lemma ker_use : ht_kernel (Some ker) N = kernel_fredriksen N.
Proof. unfold ht_kernel. rewrite HK. destruct (Nat.eqb _ _); reflexivity. Qed.
Lemma hcol_eq : forall u, htransf_phi1k (Some ker) kl kr (map u (seq 0 n)) = Some (P u, H u).
Proof.
  intros u. unfold htransf_phi1k. rewrite map_length, seq_length. fold N. rewrite ker_use. fold (P u).
  assert (E : hilbert_with (P u) (kernel_fredriksen N) <> None).
  { unfold hilbert_with. rewrite kernel_length, padded_length. destruct (Nat.ltb_spec (2 * N) N); [lia|discriminate]. }
  unfold hil. fold N. destruct (hilbert_with (P u) (kernel_fredriksen N)); [reflexivity|congruence].
Qed.
Lemma at_k1_calls : forall u x,
  radd (at_k1 grid (H u) x false) (rmul (Ci RRing) (at_k1 grid (P u) x false)) = I false x u /\
  rsub (at_k1 grid (H u) x true) (rmul (Ci RRing) (at_k1 grid (P u) x true)) = I true x (fun k => conj (u k)).
Proof.
  intros u x. split; [|rewrite ints_conj]; unfold at_k1, ints; destruct (outside grid x).
  - ring.
  - apply cplx_eq; simpl; ring.
  - apply cplx_eq; simpl; ring.
  - apply cplx_eq; simpl; ring.
Qed.
Variables (f : list R) (old : option (list Cr)).
Hypothesis (LF : length f = n) (HO : cached old).
Let uf := fun k => cR (nth k f 0).
Lemma func_calls : exists fp hf, htransf_fk old kl kr f = Some (fp, hf) /\ fp = pad 0 kl kr f /\ forall x s, func_2vN grid hf x s = I s x uf.
Proof.
  unfold htransf_fk. rewrite LF. fold N. rewrite (proj1 (C57_cache old N HO)).
  assert (EP : map cR (pad 0 kl kr f) = P uf).
  { rewrite (map_pad _ _ cR). unfold padded. change (cR 0) with (@r0 Cr). f_equal. apply (nth_ext _ _ r0 r0). { now rewrite !map_length, seq_length. }
    intros i Hi. rewrite map_length in Hi. rewrite nth_map_seq by lia. unfold uf. rewrite (nth_indep _ r0 (cR 0)) by (rewrite map_length; lia). now rewrite map_nth. }
  rewrite EP. assert (EH : hilbert_with (P uf) (kernel_fredriksen N) = Some (H uf)).
  { assert (A := hcol_eq uf). unfold htransf_phi1k in A. rewrite map_length, seq_length in A. fold N in A. rewrite ker_use in A. fold (P uf) in A.
    destruct (hilbert_with (P uf) (kernel_fredriksen N)); congruence. }
  rewrite EH. eexists. eexists. split; [reflexivity|]. split; [reflexivity|].
  set (hf := map _ _).
  assert (LP : length (pad 0 kl kr f) = N) by (rewrite pad_length, LF; reflexivity).
  assert (UR : forall k, im (uf k) = 0) by reflexivity.
  assert (PR : forall j, im (nth j (P uf) r0) = 0). { intros j. rewrite padded_nth. destruct (_ && _); reflexivity. }
  assert (CP : forall j, nth j (P uf) r0 = conj (nth j (P uf) r0)). { intros j. apply cplx_eq; [reflexivity|]. simpl. rewrite PR. change (0 = - 0). ring. }
  assert (CU : H uf = H (fun k => conj (uf k))).
  { unfold hil. rewrite (padded_ext uf (fun k => conj (uf k))); [reflexivity|]. intros k _. apply cplx_eq; [reflexivity|]. simpl. change (0 = - 0). ring. }
  assert (CH : forall j, nth j (H uf) r0 = conj (nth j (H uf) r0)). { intros j. rewrite <- H_conj. now rewrite <- CU. }
  assert (V : forall j, nth j hf r0 = radd (nth j (H uf) r0) (rmul (ropp (Ci RRing)) (nth j (P uf) r0))).
  { intros j. destruct (Nat.lt_ge_cases j N) as [A|A].
    - unfold hf. assert (LC : length (combine (H uf) (pad 0 kl kr f)) = N) by (rewrite combine_length, hil_length; lia).
      rewrite (nth_indep _ r0 (shifted (fst (r0 : Cr, 0)) (snd (r0 : Cr, 0)))) by (rewrite map_length; lia).
      rewrite (map_nth (fun p => shifted (fst p) (snd p))). rewrite combine_nth by (rewrite hil_length; lia). cbn [fst snd].
      rewrite <- EP. rewrite (nth_indep (map cR _) r0 (cR 0)) by (rewrite map_length; lia). rewrite map_nth.
      assert (IH := f_equal im (CH j)). simpl in IH. assert (IZ : im (nth j (H uf) r0) = 0). { set (z := im (nth j (H uf) r0)) in *. change (z = Ropp z) in IH. lra. }
      apply cplx_eq; unfold shifted; simpl.
      + assert (G : forall z w : R, z = z + (- 0 * w - - (1) * 0)) by (intros; ring). apply G.
      + assert (G : forall z w : R, z = 0 -> - w = z + (- 0 * 0 + - (1) * w)) by (intros z w ->; ring). apply G. exact IZ.
    - rewrite hil_over by auto. rewrite (nth_overflow hf), (nth_overflow (P uf)) by (rewrite ?padded_length; unfold hf; rewrite ?map_length, ?combine_length, ?hil_length; lia).
      ring. }
  intros x s. unfold func_2vN, ints. destruct (outside grid x); auto.
  assert (IF : interp grid hf x = radd (interp grid (H uf) x) (rmul (ropp (Ci RRing)) (interp grid (P uf) x))).
  { unfold interp. rewrite !V. repeat (rewrite csc_sub || rewrite csc_add || rewrite csc_mul). ring. }
  assert (XH := interp_conj (H uf) (H uf) x CH). assert (XP := interp_conj (P uf) (P uf) x CP).
  rewrite IF. destruct s.
  - f_equal. ring.
  - f_equal. rewrite conj_add, conj_mul, <- XH, <- XP. f_equal. apply cplx_eq; simpl; ring.
Qed.
End Functional.

(** At a point of a uniform grid this is the integral of u(E')/(x - E' + i0): the principal value minus i pi u(x), with plus for -i0;
    real and imaginary part of u separately. *)
Theorem C59_resolvent : forall n kl kr grid y0 h u g1 g2 j, 0 < h -> (2 <= length grid)%nat -> length grid = (n + kl + kr)%nat -> uniform grid y0 h ->
  interpolant g1 y0 h (map re (padded n kl kr u)) -> interpolant g2 y0 h (map im (padded n kl kr u)) -> (j < length grid)%nat ->
  let x := nth j grid 0 in
  exists v1 v2, is_pv g1 (y0 - h) x (y0 + INR (length grid) * h) (- v1) /\ is_pv g2 (y0 - h) x (y0 + INR (length grid) * h) (- v2) /\
    ints n kl kr grid true x u = @mkC RRing (v1 + PI * g2 x)%R (v2 - PI * g1 x)%R /\
    ints n kl kr grid false x u = @mkC RRing (v1 - PI * g2 x)%R (v2 + PI * g1 x)%R.
Proof.
  intros n kl kr grid y0 h u g1 g2 j Hh Hl Lg U I1 I2 Hj x.
  assert (X : x = y0 + INR j * h) by (apply U; auto).
  assert (O : outside grid x = false).
  { apply (outside_false grid y0 h); auto; [lia|]. rewrite X. assert (P1 := pos_INR j). assert (INR j <= INR (length grid - 1)) by (apply le_INR; lia). nra. }
  assert (LP := padded_length n kl kr u).
  destruct (hilbert_with_pv (padded n kl kr u) y0 h g1 g2 Hh I1 I2) as (r & E & Lr & V).
  assert (HH : hil n kl kr u = r). { unfold hil. rewrite LP in E. now rewrite E. }
  rewrite LP, <- Lg in V. destruct (V j Hj) as (V1 & V2). rewrite <- X in V1, V2.
  destruct (C57_interpolant y0 h (map re r) Hh) as (ra & J1). destruct (C57_interpolant y0 h (map im r) Hh) as (rb & J2).
  assert (AT : forall g l, interpolant g y0 h l -> (j <= length l)%nat -> g x = nth j l 0).
  { intros g l I HL. assert (Y := I j 1 HL ltac:(lra)). replace (y0 + (INR j - 1 + 1) * h) with x in Y by (rewrite X; ring). rewrite Y. cbn [nth]. ring. }
  exists (PI * re (nth j r r0))%R, (PI * im (nth j r r0))%R. split; [exact V1|]. split; [exact V2|].
  unfold ints. rewrite O, HH. rewrite (interp_value grid y0 h r x ra rb Hl Hh U (eq_trans Lr (eq_trans LP (eq_sym Lg))) O J1 J2).
  rewrite (interp_value grid y0 h (padded n kl kr u) x g1 g2 Hl Hh U (eq_trans LP (eq_sym Lg)) O I1 I2).
  assert (LR := eq_trans Lr (eq_trans LP (eq_sym Lg))). assert (JR : (j <= length r)%nat) by lia. rewrite (AT ra _ J1), (AT rb _ J2) by (rewrite map_length; exact JR). rewrite nth_map_re, nth_map_im.
  set (a := re (nth j r r0)). set (b := im (nth j r r0)). set (c := g1 x). set (d := g2 x).
  split; apply cplx_eq; simpl.
  - assert (G : forall w z : R, PI * (a - (0 * w - 1 * z)) = PI * a + PI * z) by (intros; ring). apply G.
  - assert (G : forall w z : R, PI * (b - (0 * z + 1 * w)) = PI * b - PI * w) by (intros; ring). apply G.
  - assert (G : forall w z : R, PI * (a + (0 * w - 1 * z)) = PI * a - PI * z) by (intros; ring). apply G.
  - assert (G : forall w z : R, PI * (b + (0 * z + 1 * w)) = PI * b + PI * w) by (intros; ring). apply G.
Qed.

(** ** Preparation *)
Section Prepared.
Variables (L : Lay) (nl : nat) (E : nat -> R) (T : nat -> nat -> nat -> Cr) (mu temp : nat -> R).
Hypothesis (CL : clayout L) (L1 : layout1 L).
Variables (kpnt : option nat) (dlst : list (R * R)) (ext_fct : R) (g g' : Grid) (old : option (list Cr)) (p : Prep).
Hypothesis (HO : cached old) (HP : prepare L E mu temp kpnt dlst ext_fct g old = Some (g', p)).
Local Notation n := (p_n p). Local Notation kl := (p_kl p). Local Notation kr := (p_kr p).
Local Notation I := (ints n kl kr (p_grid p)).
Local Notation fermi := (fun l x => 1 / (exp ((x - mu l) / temp l) + 1)).
Lemma fk_length : forall e l, length (fk mu temp e l) = length e.
Proof. intros. unfold fk. apply map_length. Qed.
(** The points of the extended grid from kpnt_left on are those of the band, the arrays hold the Fermi functions there, func_2vN is the
    resolvent integral of the Fermi function and of one minus it, the kernel is the one of this grid. *)
Theorem C59_prepare : n = length (g_Ek g') /\ p_ker p = kernel_fredriksen (n + kl + kr) /\
  (forall k, (k < n)%nat -> Ek p k = nth k (g_Ek g') 0) /\
  (forall l k, (k < n)%nat -> fpk p l k = fermi l (nth k (g_Ek g') 0)) /\
  (forall l x s, func_2vN (p_grid p) (p_hfkp p l) x s = I s x (fun k => cR (fermi l (nth k (g_Ek g') 0)))) /\
  (forall l x s, func_2vN (p_grid p) (p_hfkm p l) x s = I s x (fun k => cR (1 - fermi l (nth k (g_Ek g') 0)))).
Proof.
  unfold prepare in HP. destruct (make_Ek_grid kpnt dlst g) as [[g1 rs]|] eqn:G; [|discriminate].
  destruct (grid_ext _ _ _ _ _ _) as [[ext kl0] kr0] eqn:GE. injection HP as <- <-. cbn [p_n p_kl p_kr p_grid p_ker p_hfkp p_hfkm].
  set (e := g_Ek g1) in *.
  assert (HC := C57_cache old (length e + kl0 + kr0) HO). destruct HC as (HC1 & HC2).
  assert (NE : forall l k, (k < length e)%nat -> nth k (fk mu temp e l) 0 = 1 / (exp ((nth k e 0 - mu l) / temp l) + 1)).
  { intros l k Hk. unfold fk. rewrite (nth_indep _ 0 ((fun x => 1 / (exp ((x - mu l) / temp l) + 1)) 0)) by (rewrite map_length; lia). now rewrite (map_nth (fun x => 1 / (exp ((x - mu l) / temp l) + 1))). }
  assert (FC : forall l, exists fp hf, htransf_fk old kl0 kr0 (fk mu temp e l) = Some (fp, hf) /\ fp = pad 0 kl0 kr0 (fk mu temp e l) /\
     forall x s, func_2vN ext hf x s = ints (length e) kl0 kr0 ext s x (fun k => cR (nth k (fk mu temp e l) 0))).
  { intros l. apply (func_calls (length e) kl0 kr0 ext _ eq_refl); auto. apply fk_length. }
  assert (FM : forall l, exists fp hf, htransf_fk (Some (ht_kernel old (length e + kl0 + kr0))) kl0 kr0 (map (fun x => 1 - x) (fk mu temp e l)) = Some (fp, hf) /\ fp = pad 0 kl0 kr0 (map (fun x => 1 - x) (fk mu temp e l)) /\
     forall x s, func_2vN ext hf x s = ints (length e) kl0 kr0 ext s x (fun k => cR (nth k (map (fun x => 1 - x) (fk mu temp e l)) 0))).
  { intros l. apply (func_calls (length e) kl0 kr0 ext _ eq_refl); auto. rewrite map_length. apply fk_length. }
  split; [reflexivity|]. split; [exact HC1|]. split; [|split; [|split]].
  - intros k Hk. unfold Ek. cbn [p_kl p_grid]. unfold grid_ext in GE. injection GE as <- <- _.
    rewrite app_nth2 by lia. rewrite Nat.add_comm, Nat.add_sub. now rewrite app_nth1.
  - intros l k Hk. unfold fpk. cbn [p_kl p_fkp]. destruct (FC l) as (fp & hf & -> & -> & _). cbn [fst]. unfold pad.
    rewrite app_nth2 by (rewrite repeat_length; lia). rewrite repeat_length, Nat.add_comm, Nat.add_sub. rewrite app_nth1 by (rewrite fk_length; auto). now apply NE.
  - intros l x s. destruct (FC l) as (fp & hf & -> & _ & V). cbn [snd]. rewrite V. apply ints_ext. intros k Hk. now rewrite NE.
  - intros l x s. destruct (FM l) as (fp & hf & EQ & _ & V). change (@Some (list (cplx RRing))) with (@Some (list Cr)). rewrite EQ. cbn [snd]. rewrite V. apply ints_ext. intros k Hk.
    rewrite (nth_indep _ 0 ((fun x => 1 - x) 0)) by (rewrite map_length, fk_length; auto). rewrite (map_nth (fun x => 1 - x)). now rewrite NE.
Qed.
Lemma loc1_eq : forall k, loc1 L nl E T p k = kern1 RRing L nl E T (Fp RRing I (fpk p)) (Fm RRing I (fpk p)) (Ek p k).
Proof.
  destruct C59_prepare as (A1 & A2 & A3 & A4 & A5 & A6). intros k. unfold loc1. f_equal; extensionality x; extensionality l; extensionality s.
  - rewrite A5. unfold Fp. apply ints_ext. intros i Hi. unfold fp_. now rewrite A4.
  - rewrite A6. unfold Fm. apply ints_ext. intros i Hi. unfold fm_. now rewrite A4.
Qed.

(** ** The non-local terms *)
Definition column (x : tab) (j : Z) (k l i : nat) : Cr := x k l (i, j).
Local Notation terms := (iter_terms RRing L nl E T).
Lemma nonloc_row : forall x k l q c b j, In q (charges1 L) -> In c (states L (q + 1)) -> In b (states L q) ->
  nonloc L nl E T p x k l (ind1 L c b q, j) = rsum (callv RRing I (column x j)) (terms (Ek p k) l (fpk p l k) (fmk p l k) q c b).
Proof.
  intros x k l q c b j Hq Hc Hb. unfold nonloc. rewrite (iter_row RRing L nl E T L1) by auto. apply (rsum_ext Cr). intros [[[[e l1] i] cj] w] _.
  destruct C59_prepare as (A1 & A2 & _). unfold pick, callv, gh, gu, hcol. f_equal.
  rewrite (hcol_eq n kl kr (p_ker p) A2 (fun k => x k l1 (i, j))). cbn [fst snd].
  destruct (at_k1_calls n kl kr (p_grid p) (fun k => x k l1 (i, j)) e) as (B1 & B2). destruct cj; [exact B2|exact B1].
Qed.
Lemma callv_add : forall X Y t, callv RRing I (fun k l i => radd (X k l i) (Y k l i)) t = radd (callv RRing I X t) (callv RRing I Y t).
Proof.
  intros X Y [[[[e l] i] cj] w]. unfold callv. destruct cj.
  - unfold cY. rewrite (ints_ext _ _ _ _ true e _ (fun k => radd (conj (X k l i)) (conj (Y k l i)))) by (intros; apply conj_add). rewrite ints_add. ring.
  - unfold pY. rewrite ints_add. ring.
Qed.
(** for a real factor *)
Lemma callv_mul : forall X (a : Cr) t, conj a = a -> callv RRing I (fun k l i => rmul (X k l i) a) t = rmul (callv RRing I X t) a.
Proof.
  intros X a [[[[e l] i] cj] w] Ha. unfold callv. destruct cj.
  - unfold cY. rewrite (ints_ext _ _ _ _ true e _ (fun k => rmul a (conj (X k l i)))) by (intros; rewrite conj_mul, Ha; ring). rewrite ints_mul. ring.
  - unfold pY. rewrite (ints_ext _ _ _ _ false e _ (fun k => rmul a (X k l i))) by (intros; ring). rewrite ints_mul. ring.
Qed.
Lemma callv_0 : forall t, callv RRing I (fun _ _ _ => r0) t = r0.
Proof.
  intros t. assert (A := callv_mul (fun _ _ _ => r0) r0 t ltac:(apply cplx_eq; simpl; ring)).
  transitivity (callv RRing I (fun _ _ _ => rmul r0 r0) t); [|rewrite A; ring]. f_equal. extensionality k. extensionality l. extensionality i. ring.
Qed.
Lemma callv_sum : forall A (X : A -> nat -> nat -> nat -> Cr) (a : A -> Cr) (js : list A) t, (forall j, In j js -> conj (a j) = a j) ->
  callv RRing I (fun k l i => rsum (fun j => rmul (X j k l i) (a j)) js) t = rsum (fun j => rmul (callv RRing I (X j) t) (a j)) js.
Proof.
  intros A X a js t. induction js as [|j js IH]; intros Ha; [apply callv_0|]. cbn [rsum].
  rewrite (callv_add (fun k l i => rmul (X j k l i) (a j)) (fun k l i => rsum (fun j => rmul (X j k l i) (a j)) js)).
  rewrite callv_mul by (apply Ha; now left). rewrite IH; [reflexivity|]. intros; apply Ha; now right.
Qed.
Lemma nonloc_add : forall x y k l q c b j, In q (charges1 L) -> In c (states L (q + 1)) -> In b (states L q) ->
  nonloc L nl E T p (fun k l i => radd (x k l i) (y k l i)) k l (ind1 L c b q, j) =
  radd (nonloc L nl E T p x k l (ind1 L c b q, j)) (nonloc L nl E T p y k l (ind1 L c b q, j)).
Proof.
  intros. rewrite !nonloc_row by auto. rewrite <- (rsum_plus Cr). apply (rsum_ext Cr). intros t _. apply (callv_add (column x j) (column y j)).
Qed.
Lemma nonloc_0 : forall k l q c b j, In q (charges1 L) -> In c (states L (q + 1)) -> In b (states L q) ->
  nonloc L nl E T p (fun _ _ _ => r0) k l (ind1 L c b q, j) = r0.
Proof. intros. rewrite nonloc_row by auto. apply (rsum_0 Cr). intros t _. apply callv_0. Qed.

(** ** The iteration *)
Variable linv : (nat * nat -> Cr) -> option (nat * nat -> Cr).
(** what np.linalg.inv returns is an inverse *)
Hypothesis LINV : forall M N, linv M = Some N -> forall i j, (i < ly_ndm1 L)%nat -> (j < ly_ndm1 L)%nat ->
  crs (fun x => rmul (M (i, x)) (N (x, j))) (seq 0 (ly_ndm1 L)) = if Nat.eq_dec i j then r1 else r0.
Local Notation iteration := (iteration L nl E T linv p). Local Notation iterations := (iterations L nl E T linv p).
Local Notation loc1 := (loc1 L nl E T p). Local Notation loc0 := (loc0 L T p). Local Notation nonloc := (nonloc L nl E T p).
Lemma dot_inv : forall M N B i j, linv M = Some N -> (i < ly_ndm1 L)%nat ->
  crs (fun x => rmul (M (i, x)) (dot L N B (x, j))) (seq 0 (ly_ndm1 L)) = B (i, j).
Proof.
  intros M N B i j HI Hi. unfold dot. cbn [fst snd].
  transitivity (crs (fun y => rmul (if Nat.eq_dec i y then r1 else r0) (B (y, j))) (seq 0 (ly_ndm1 L))).
  - transitivity (crs (fun y => crs (fun x => rmul (rmul (M (i, x)) (N (x, y))) (B (y, j))) (seq 0 (ly_ndm1 L))) (seq 0 (ly_ndm1 L))).
    + rewrite (rsum_swap Cr). apply (rsum_ext Cr). intros x _. rewrite <- (rsum_mul_l Cr). apply (rsum_ext Cr). intros y _. ring.
    + apply (rsum_ext Cr). intros y Hy. apply in_seq in Hy. rewrite (rsum_mul_r Cr). rewrite (LINV _ _ HI) by lia. reflexivity.
  - rewrite (rsum_single Cr _ _ _ i (seq_NoDup _ _)).
    + destruct (Nat.eq_dec i i); [ring|congruence].
    + apply in_seq. lia.
    + intros y _ NE. destruct (Nat.eq_dec i y); [congruence|ring].
Qed.
Definition solves (x y : tab) : Prop := forall k l q c b j, (k < n)%nat -> In q (charges1 L) -> In c (states L (q + 1)) -> In b (states L q) ->
  let i := ind1 L c b q in
  crs (fun z => rmul (loc1 k (i, z)) (x k l (z, j))) (seq 0 (ly_ndm1 L)) = radd (loc0 k l (i, j)) (nonloc y k l (i, j)).
Definition inv_state (s : VS) (prev : tab) : Prop := vs_zeroth s = false /\
  (forall k l i, vs_phi s k l i = radd (prev k l i) (vs_delta s k l i)) /\
  (forall k l, (k < n)%nat -> linv (loc1 k) = Some (vs_inv s k l)) /\ solves (vs_phi s) prev.
Lemma inv_first : forall s, iteration fresh = Some s -> inv_state s (fun _ _ _ => r0) /\ vs_niter s = 0%Z.
Proof.
  intros s H. unfold VN2Solve.iteration, iterate in H. cbn [vs_zeroth fresh] in H. destruct (forallb _ _) eqn:F; [|discriminate]. injection H as <-.
  rewrite forallb_forall in F. assert (FI : forall k, (k < n)%nat -> exists N, linv (loc1 k) = Some N).
  { intros k Hk. specialize (F k ltac:(apply in_seq; lia)). destruct (linv (loc1 k)) as [N|]; [now exists N|discriminate]. }
  split; [|reflexivity]. unfold inv_state. cbn [vs_zeroth vs_phi vs_delta vs_inv fresh]. split; [reflexivity|]. split; [reflexivity|]. split.
  - intros k l Hk. destruct (FI k Hk) as (N & ->). reflexivity.
  - intros k l q c b j Hk Hq Hc Hb i. destruct (FI k Hk) as (N & EN). rewrite EN. unfold i. rewrite nonloc_0 by auto.
    transitivity (crs (fun z => rmul (loc1 k (ind1 L c b q, z)) (dot L N (loc0 k l) (z, j))) (seq 0 (ly_ndm1 L))).
    + apply (rsum_ext Cr). intros z _. f_equal. assert (G : forall u : Cr, radd r0 u = u) by (intros; ring). apply G.
    + rewrite (dot_inv _ _ _ _ _ EN); [ring|]. apply (l1_ind L L1); auto. now apply (charges1_pos L).
Qed.
Lemma inv_step : forall s s' prev, inv_state s prev -> iteration s = Some s' -> inv_state s' (vs_phi s) /\ vs_niter s' = (vs_niter s + 1)%Z.
Proof.
  intros s s' prev (Z0 & PD & IV & SV) H. unfold VN2Solve.iteration, iterate in H. rewrite Z0 in H. injection H as <-.
  split; [|reflexivity]. unfold inv_state. cbn [vs_zeroth vs_phi vs_delta vs_inv]. split; [reflexivity|]. split; [reflexivity|]. split; [exact IV|].
  intros k l q c b j Hk Hq Hc Hb i. 
  transitivity (radd (crs (fun z => rmul (loc1 k (i, z)) (vs_phi s k l (z, j))) (seq 0 (ly_ndm1 L)))
    (crs (fun z => rmul (loc1 k (i, z)) (dot L (vs_inv s k l) (nonloc (vs_delta s) k l) (z, j))) (seq 0 (ly_ndm1 L)))).
  - rewrite <- (rsum_plus Cr). apply (rsum_ext Cr). intros z _. assert (G : forall u v w : Cr, rmul u (radd v w) = radd (rmul u v) (rmul u w)) by (intros; ring). apply G.
  - rewrite (dot_inv _ _ _ _ _ (IV k l Hk)) by (apply (l1_ind L L1); auto; now apply (charges1_pos L)).
    unfold i. rewrite (SV k l q c b j) by auto.
    assert (PE : vs_phi s = fun k l i => radd (prev k l i) (vs_delta s k l i)). { extensionality k'. extensionality l'. extensionality i'. apply PD. }
    rewrite PE, nonloc_add by auto. ring.
Qed.
Lemma iterations_snoc : forall m s, iterations (S m) s = match iterations m s with Some s' => iteration s' | None => None end.
Proof.
  induction m as [|m IH]; intros s.
  - simpl. destruct (iteration s); reflexivity.
  - change (iterations (S (S m)) s) with (match iteration s with Some s' => iterations (S m) s' | None => None end).
    change (iterations (S m) s) with (match iteration s with Some s' => iterations m s' | None => None end).
    destruct (iteration s) as [s1|]; [apply IH|reflexivity].
Qed.
Lemma inv_all : forall m s, iterations (S m) fresh = Some s -> exists s0, iterations m fresh = Some s0 /\ inv_state s (vs_phi s0) /\ vs_niter s = Z.of_nat m.
Proof.
  induction m as [|m IH]; intros s H.
  - exists fresh. split; [reflexivity|]. rewrite iterations_snoc in H. destruct (inv_first s H) as (A & B). auto.
  - rewrite iterations_snoc in H. destruct (iterations (S m) fresh) as [s0|] eqn:E0; [|discriminate]. exists s0. split; [reflexivity|].
    destruct (IH s0 eq_refl) as (s00 & _ & A & B). destruct (inv_step s0 s _ A H) as (A' & B'). split; auto. rewrite B', B. lia.
Qed.
(** Each iteration solves the local equation whose right-hand side has the non-local terms of the result of the iterations before it. *)
Theorem C59_iterate : forall m s0 s1, iterations m fresh = Some s0 -> iteration s0 = Some s1 ->
  vs_niter s1 = Z.of_nat m /\ (forall k l i, vs_phi s1 k l i = radd (vs_phi s0 k l i) (vs_delta s1 k l i)) /\
  forall k l q c b j, (k < n)%nat -> In q (charges1 L) -> In c (states L (q + 1)) -> In b (states L q) ->
    let i := ind1 L c b q in
    crs (fun z => rmul (loc1 k (i, z)) (vs_phi s1 k l (z, j))) (seq 0 (ly_ndm1 L)) = radd (loc0 k l (i, j)) (nonloc (vs_phi s0) k l (i, j)).
Proof.
  intros m s0 s1 H0 H1. assert (H : iterations (S m) fresh = Some s1) by (rewrite iterations_snoc, H0; exact H1).
  destruct (inv_all m s1 H) as (s0' & H0' & (Z0 & PD & _ & SV) & NI). rewrite H0 in H0'. injection H0' as <-. split; [auto|]. split; [exact PD|]. exact SV.
Qed.

(** ** The equation for the first-order elements *)
(** the first-order elements for the density matrix phi0 *)
Definition applied (x : tab) (phi0 : Z -> Cr) (k l i : nat) : Cr := crs (fun j => rmul (x k l (i, Z.of_nat j)) (phi0 (Z.of_nat j))) (seq 0 (n0 L)).
(** the right-hand side of an iteration applied to phi0 *)
Definition sources (phi0 : Z -> Cr) (k l : nat) (q : Z) (c b : nat) : Cr :=
  rsub (crs (fun b1 => rmul (rmul (T l c b1) (cR (fpk p l k))) (phi0 (ind0 L b1 b q))) (states L q))
       (crs (fun c1 => rmul (rmul (T l c1 b) (cR (1 - fpk p l k))) (phi0 (ind0 L c c1 (q + 1)))) (states L (q + 1))).
Lemma equation_iff : forall m s0 s1 phi0, iterations m fresh = Some s0 -> iteration s0 = Some s1 ->
  let X := applied (vs_phi s1) phi0 in let Y := applied (vs_phi s0) phi0 in
  forall k l q c b, (k < n)%nat -> In q (charges1 L) -> In c (states L (q + 1)) -> In b (states L q) ->
  (rmul (cR (Ek p k - E c + E b)) (X k l (ind1 L c b q)) = radd (sources phi0 k l q c b) (second RRing L nl E T I (fpk p) (Ek p) X Y k l q c b) <->
   rsum (callv RRing I Y) (terms (Ek p k) l (fpk p l k) (fmk p l k) q c b) =
   crs (fun j => rmul (nonloc (vs_phi s0) k l (ind1 L c b q, Z.of_nat j)) (phi0 (Z.of_nat j))) (seq 0 (n0 L))).
Proof.
  intros m s0 s1 phi0 H0 H1 X Y k l q c b Hk Hq Hc Hb. destruct (C59_iterate m s0 s1 H0 H1) as (_ & _ & SV).
  assert (A1 : crs (fun z => rmul (loc1 k (ind1 L c b q, z)) (X k l z)) (seq 0 (ly_ndm1 L)) =
    radd (crs (fun j => rmul (loc0 k l (ind1 L c b q, Z.of_nat j)) (phi0 (Z.of_nat j))) (seq 0 (n0 L)))
         (crs (fun j => rmul (nonloc (vs_phi s0) k l (ind1 L c b q, Z.of_nat j)) (phi0 (Z.of_nat j))) (seq 0 (n0 L)))).
  { transitivity (crs (fun j => crs (fun z => rmul (rmul (loc1 k (ind1 L c b q, z)) (vs_phi s1 k l (z, Z.of_nat j))) (phi0 (Z.of_nat j))) (seq 0 (ly_ndm1 L))) (seq 0 (n0 L))).
    - rewrite (rsum_swap Cr). apply (rsum_ext Cr). intros z _. unfold X, applied. rewrite <- (rsum_mul_l Cr). apply (rsum_ext Cr). intros j _. ring.
    - rewrite <- (rsum_plus Cr). apply (rsum_ext Cr). intros j _. rewrite (rsum_mul_r Cr). rewrite (SV k l q c b (Z.of_nat j)) by auto. ring. }
  rewrite loc1_eq in A1. rewrite (kern1_row RRing L nl E T CL L1 I (fpk p) (Ek p) X Y) in A1 by auto.
  rewrite (row_sum RRing L nl E T I) with (Y := Y) in A1;
    [|intros s x u v HE; apply ints_ext; intros; apply HE|intros; apply ints_add|intros; apply ints_mul].
  unfold VN2Solve.loc0 in A1. rewrite (kern0_row RRing L nl E T CL L1) in A1 by auto.
  change (@rsub RRing (@r1 RRing) (fpk p l k)) with (fmk p l k) in A1. fold (sources phi0 k l q c b) in A1.
  change (@ofR RRing (@radd RRing (@rsub RRing (Ek p k) (E c)) (E b))) with (cR (Ek p k - E c + E b)) in A1.
  unfold sources. change (1 - fpk p l k)%R with (fmk p l k).
  match type of A1 with radd (rsub ?a ?b) ?c = radd ?d ?e => set (ta := a) in *; set (tb := b) in *; set (tc := c) in *; set (td := d) in *; set (te := e) in * end.
  change (ta = radd td tb <-> tc = te). clearbody ta tb tc td te. split; intros Q.
  - rewrite Q in A1. transitivity (rsub (radd (rsub (radd td tb) tb) tc) td); [ring|]. rewrite A1. ring.
  - rewrite <- Q in A1. transitivity (radd (rsub (radd (rsub ta tb) tc) tc) tb); [ring|]. rewrite A1. ring.
Qed.
(** For a real density matrix the result satisfies the equation for the first-order elements in which the elements with two lead states
    have been eliminated: those with X solved for, the others with the result Y of the iterations before. *)
Theorem C59_equation : forall m s0 s1 phi0, iterations m fresh = Some s0 -> iteration s0 = Some s1 ->
  (forall j, (j < n0 L)%nat -> conj (phi0 (Z.of_nat j)) = phi0 (Z.of_nat j)) ->
  let X := applied (vs_phi s1) phi0 in let Y := applied (vs_phi s0) phi0 in
  forall k l q c b, (k < n)%nat -> In q (charges1 L) -> In c (states L (q + 1)) -> In b (states L q) ->
  rmul (cR (Ek p k - E c + E b)) (X k l (ind1 L c b q)) = radd (sources phi0 k l q c b) (second RRing L nl E T I (fpk p) (Ek p) X Y k l q c b).
Proof.
  intros m s0 s1 phi0 H0 H1 RP X Y k l q c b Hk Hq Hc Hb. apply (equation_iff m s0 s1 phi0 H0 H1); auto.
  transitivity (crs (fun j => rsum (fun t => rmul (callv RRing I (column (vs_phi s0) (Z.of_nat j)) t) (phi0 (Z.of_nat j))) (terms (Ek p k) l (fpk p l k) (fmk p l k) q c b)) (seq 0 (n0 L))).
  - rewrite (rsum_swap Cr). apply (rsum_ext Cr). intros t _.
    apply (callv_sum _ (fun j => column (vs_phi s0) (Z.of_nat j)) (fun j => phi0 (Z.of_nat j))). intros j Hj. apply in_seq in Hj. apply RP. lia.
  - apply (rsum_ext Cr). intros j _. rewrite nonloc_row by auto. now rewrite (rsum_mul_r Cr).
Qed.
(** When an iteration does not change the result any more, it solves the equation. *)
Theorem C59_converged : forall m s0 s1 phi0, iterations m fresh = Some s0 -> iteration s0 = Some s1 ->
  (forall j, (j < n0 L)%nat -> conj (phi0 (Z.of_nat j)) = phi0 (Z.of_nat j)) ->
  (forall k l i, applied (vs_delta s1) phi0 k l i = r0) ->
  let X := applied (vs_phi s1) phi0 in
  forall k l q c b, (k < n)%nat -> In q (charges1 L) -> In c (states L (q + 1)) -> In b (states L q) ->
  rmul (cR (Ek p k - E c + E b)) (X k l (ind1 L c b q)) = radd (sources phi0 k l q c b) (second RRing L nl E T I (fpk p) (Ek p) X X k l q c b).
Proof.
  intros m s0 s1 phi0 H0 H1 RP D X k l q c b Hk Hq Hc Hb.
  assert (XY : X = applied (vs_phi s0) phi0).
  { extensionality k'. extensionality l'. extensionality i. destruct (C59_iterate m s0 s1 H0 H1) as (_ & PD & _).
    transitivity (radd (applied (vs_phi s0) phi0 k' l' i) (applied (vs_delta s1) phi0 k' l' i)); [|rewrite D; match goal with |- radd ?a _ = _ => set (w := a : Cr) end; assert (G : forall u : Cr, radd u r0 = u) by (intros; ring); apply G].
    unfold X, applied. rewrite <- (rsum_plus Cr). apply (rsum_ext Cr). intros j _. rewrite PD.
    assert (G : forall u v w : Cr, rmul (radd u v) w = radd (rmul u w) (rmul v w)) by (intros; ring). apply G. }
  rewrite XY at 3. now apply (C59_equation m s0 s1 phi0).
Qed.
End Prepared.

(** ** The eliminated elements *)
Section Pair.
Variable K : CRing.
Add Ring Ckring : (rth (Cx K)).
Add Ring Kkring : (rth K).
Variables (L : Lay) (T : nat -> nat -> nat -> Cx K) (f : nat -> nat -> K) (X : nat -> nat -> nat -> Cx K).
(** With one and the same X the sources of the eliminated elements are those of a Hermitian matrix: exchanging the states and the lead
    states conjugates the element, and those with two added electrons are antisymmetric in them. *)
Theorem C59_pair : (forall l a b, conj (T l a b) = T l b a) -> forall q l k l' k',
  (forall x y, conj (same K L T f X X q x y l k l' k') = ropp (same K L T f X X q y x l' k' l k)) /\
  (forall d b, two K L T f X X q d b l k l' k' = ropp (two K L T f X X q d b l' k' l k)).
Proof.
  intros HT q l k l' k'. split.
  - intros x y. assert (CR : forall z : K, conj (ofR z) = ofR z) by (intros; apply cplx_eq; simpl; ring).
    unfold same, fp_, fm_. rewrite !(conj_sub K), conj_add, !(rsum_conj K).
    rewrite <- !(rsum_opp (Cx K)) || idtac.
    match goal with |- rsub (rsub (radd ?a1 ?a2) ?a3) ?a4 = ropp (rsub (rsub (radd ?b1 ?b2) ?b3) ?b4) =>
      assert (E1 : a1 = b4); [|assert (E2 : a2 = b3); [|assert (E3 : a3 = b2); [|assert (E4 : a4 = b1); [|rewrite E1, E2, E3, E4; ring]]]] end;
    apply (rsum_ext (Cx K)); intros z _; rewrite !conj_mul, ?CR, ?conj_conj, HT; set (w := ofR _ : Cx K); ring.
  - intros d b. unfold two, fp_, fm_. ring.
Qed.
End Pair.
