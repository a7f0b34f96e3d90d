(** The matrix-free residual against the assembled kernel; row replacement.
    qmeq/approach/aprclass.py generate_vec 262-292, solve_kern 298-333. *)
From Coq Require Import String List Arith Lia ZArith Bool Permutation Ring.
From Verif Require Import Base SsqProofs Qn DMIndex DMIndexProofs CRing Layout Kernel KernelProofs PauliProofs CohProofs CohKernels.
Import ListNotations.
Open Scope nat_scope.
Local Notation length := List.length.

(** ** Model *)
Section Model.
Variable K : CRing.
Local Open Scope rng_scope.
Variable L : Lay.
(** generate_vec; [calls] are the handler calls of generate_kern.  The last statement overwrites one row. *)
Definition generate_vec (calls : list (call K)) (norm_row : Z) (phi : Z -> K) : Z -> K :=
  fun i => if Z.eq_dec i norm_row then phi0_norm K L phi - 1 else dphi_of K L phi calls i.

(** ** solve_kern 298-333 *)
Definition replace_row (m : Z * Z -> K) (r : Z) (v : Z -> K) : Z * Z -> K :=
  fun ij => if Z.eq_dec (fst ij) r then v (snd ij) else m ij.
Definition set_entry (b : Z -> K) (r : Z) (x : K) : Z -> K := fun i => if Z.eq_dec i r then x else b i.
Inductive solmethod := MSolve | MLsqr | MOther.
(** the attributes solve_kern reads and writes; [sv_sol0] is sol0[0], [None] when sol0 is None *)
Record Solver := mkSolver {
  sv_kern : Z * Z -> K; sv_bvec : Z -> K; sv_replaced : Z -> K;
  sv_sol0 : option (Z -> K); sv_phi0 : Z -> K; sv_success : bool }.
(** [lin]: np.linalg.solve / lstsq on the given matrix and right-hand side; [None] = it raised.
    [size] is kern_size, so kern[-1] is row [size] when symq=False. *)
Variable lin : solmethod -> (Z * Z -> K) -> (Z -> K) -> option (Z -> K).
Variable size : nat.
Definition solve_kern (symq : bool) (norm_row : Z) (m : solmethod) (s : Solver) : Solver :=
  let row := if symq then norm_row else Z.of_nat size in
  let replaced := if symq then (fun j => sv_kern s (norm_row, j)) else sv_replaced s in
  let kern1 := replace_row (sv_kern s) row (norm_vec K L) in
  let bvec1 := set_entry (sv_bvec s) row 1 in
  (* the try block: a new sol0, or the exception *)
  let attempt := match m with
                 | MOther => Some (sv_sol0 s)
                 | _ => match lin m kern1 bvec1 with Some x => Some (Some x) | None => None end
                 end in
  let kern2 := if symq then replace_row kern1 norm_row replaced else kern1 in
  match attempt with
  | Some (Some x) => mkSolver kern2 bvec1 replaced (Some x) x true
  | Some None => mkSolver kern2 bvec1 replaced None zeros false   (* None[0] raises *)
  | None => mkSolver kern2 bvec1 replaced (sv_sol0 s) zeros false
  end.
End Model.

(** ** Proofs *)
Section MF.
Variable K : CRing.
Local Notation C := (Cx K).
Local Open Scope rng_scope.
Add Ring KrM : (rth K).
Add Ring CrM : (rth (Cx K)).
Variable L : Lay.
Hypothesis LO : layout L.
Variable phi : Z -> K.
Local Notation rho := (rho K L phi).
Local Notation gval := (gval K L phi).
Local Notation act := (act K).
Local Notation dphi := (dphi_of K L phi).

(** rows of imaginary parts carry the opposite sign *)
Definition row_sign (i : Z) : K := if (i <? ndm0Z L)%Z then 1 else - (1).
Definition mf_hit (i : Z) (u : Z * K) : K := if Z.eq_dec i (fst u) then snd u else 0.

Lemma mi_parts : forall v : C, re (- Ci K * v) = im v /\ im (- Ci K * v) = - re v.
Proof.
  intros v. split; [rewrite re_mul|rewrite im_mul]; cbn [Ci re im]; change (re (- Ci K)) with (- (0 : K));
  change (im (- Ci K)) with (- (1 : K)); ring.
Qed.

Lemma mf_call : forall x b bp c i, el L b bp c -> uniq L b bp c = true -> call_ok K L b bp c x ->
  (match x with CEnergy _ e _ _ _ => b = bp -> e = 0 | _ => True end) ->
  rsum (mf_hit i) (mf_updates K L phi x) = row_sign i * row_part K L (gval x) b bp c i.
Proof.
  intros x b bp c i EL U OK HE.
  assert (S0 : forall k, (k < ndm0Z L)%Z -> row_sign k = 1).
  { intros k Hk. unfold row_sign. apply Z.ltb_lt in Hk. now rewrite Hk. }
  assert (S1 : forall k, (ndm0Z L <= k)%Z -> row_sign k = - (1)).
  { intros k Hk. unfold row_sign. apply Z.ltb_ge in Hk. now rewrite Hk. }
  assert (LE : (npauliZ L <= ndm0Z L)%Z) by (unfold npauliZ, ndm0Z; pose proof (lo_le L LO); lia).
  assert (HI : has_imag L (ind0 L b bp c) = true -> (ndm0Z L <= imag_ind L (ind0 L b bp c))%Z).
  { unfold has_imag. intros H. now apply Z.leb_le in H. }
  destruct x as [e b' bp' c'|f b' bp' c' a ap ac|]; [| |destruct OK].
  - destruct OK as (-> & -> & ->). unfold KernelProofs.gval, row_part. cbn [mf_updates].
    destruct (el_cases L LO b bp c EL) as [(Hb & A & B)|(Hne & A & B)]; rewrite B in *.
    + subst bp. rewrite Nat.eqb_refl. cbn [rsum]. rewrite (HE eq_refl). rewrite im_mul. cbn [re im ofR].
      rewrite (rho_diag_real K L LO phi) by apply EL. cbn [re im ofR]. destruct (Z.eq_dec i _); ring.
    + apply Nat.eqb_neq in Hne. rewrite Hne. cbn [rsum]. unfold mf_hit. cbn [fst snd].
      replace (- Ci K * ofR e * rho b bp c) with (- Ci K * (ofR e * rho b bp c)) by ring.
      destruct (mi_parts (ofR e * rho b bp c)) as [-> ->]. specialize (HI eq_refl).
      destruct (Z.eq_dec i (ind0 L b bp c)) as [E1|E1], (Z.eq_dec i (imag_ind L (ind0 L b bp c))) as [E2|E2]; try lia.
      * rewrite E1, S0 by lia. ring.
      * rewrite E2, S1 by lia. ring.
      * ring.
  - destruct OK as (-> & -> & -> & EA). unfold KernelProofs.gval, row_part. cbn [mf_updates].
    replace (- Ci K * f * rho a ap ac) with (- Ci K * (f * rho a ap ac)) by ring.
    destruct (mi_parts (f * rho a ap ac)) as [-> ->].
    destruct (el_cases L LO b bp c EL) as [(Hb & A & B)|(Hne & A & B)]; rewrite B in *; cbn [rsum]; unfold mf_hit; cbn [fst snd].
    + destruct (Z.eq_dec i (ind0 L b bp c)) as [E1|E1]; [|ring]. rewrite E1, S0 by lia. ring.
    + specialize (HI eq_refl).
      destruct (Z.eq_dec i (ind0 L b bp c)) as [E1|E1], (Z.eq_dec i (imag_ind L (ind0 L b bp c))) as [E2|E2]; try lia.
      * rewrite E1, S0 by lia. ring.
      * rewrite E2, S1 by lia. ring.
      * ring.
Qed.

Section Gen.
Variables (E : nat -> K) (cpl : nat -> nat -> Z -> list (call K)).
Hypothesis CPL : forall b bp c x, el L b bp c -> In x (cpl b bp c) -> call_ok K L b bp c x /\
  (match x with CEnergy _ _ _ _ _ => False | _ => True end).

Theorem mf_act : forall i,
  dphi (generate_kern K L E cpl) i =
  row_sign i * act (ly_ndm0r L) (kern_of K L (generate_kern K L E cpl)) phi i.
Proof.
  intros i. rewrite (act_generate K L LO phi E cpl CPL). unfold dphi_of. rewrite run_updates_sum. unfold zeros.
  etransitivity; [apply (Radd_0_l (rth K))|]. fold (mf_hit i). rewrite rsum_flat_map.
  change (rsum (fun x => rsum (mf_hit i) (mf_updates K L phi x)) (generate_kern K L E cpl) =
    row_sign i * rsum (fun c => rsum (fun p => if (is_included L (fst p) (snd p) c && is_unique L (fst p) (snd p) c)%bool
        then row_part K L (G K L phi E cpl (fst p) (snd p) c) (fst p) (snd p) c i else 0)
                      (combinations_wr (states L c))) (charges L)).
  unfold generate_kern. rewrite rsum_flat_map, <- rsum_mul_l. apply rsum_ext. intros c Hc.
  rewrite rsum_flat_map, <- rsum_mul_l. apply rsum_ext. intros [b bp] Hp. cbn [fst snd].
  destruct (is_included L b bp c && is_unique L b bp c)%bool eqn:I; [|cbn [rsum]; ring].
  apply andb_prop in I. destruct I as [I1 I2].
  assert (EL := pair_el K L LO phi E c (b, bp) Hc Hp I1). cbn [fst snd] in EL.
  cbn [rsum]. unfold G. rewrite row_part_add.
  match goal with |- ?x + ?y = ?s * (?u + ?v) => assert (X : x = s * u); [|assert (Y : y = s * v); [|rewrite X, Y; ring]] end.
  - rewrite (mf_call _ b bp c i EL I2); cbn; auto. intros ->. ring.
  - rewrite <- row_part_sum, <- rsum_mul_l. apply rsum_ext. intros x Hx. destruct (CPL b bp c x EL Hx) as [OK NE].
    apply mf_call; auto. destruct x; auto. destruct NE.
Qed.

(** every row belongs to an element *)
Lemma all_in_range : forall u, In u (flat_map (mf_updates K L phi) (generate_kern K L E cpl)) -> inr (ly_ndm0r L) (fst u).
Proof.
  intros u Hu. apply in_flat_map in Hu. destruct Hu as (x & Hx & Hu).
  destruct (gen_calls_ok K L LO phi E cpl CPL x Hx) as (b & bp & c & EL & _ & OK).
  destruct (el_inr L LO b bp c EL) as [B1 B2].
  destruct x as [e b' bp' c'|f b' bp' c' a ap ac|]; [| |destruct OK].
  - destruct OK as (-> & -> & ->). cbn [mf_updates] in Hu.
    destruct (Nat.eqb_spec b bp) as [Eb|Nb]; [destruct Hu|].
    destruct (el_cases L LO b bp c EL) as [(Hb & A & B)|(Hne & A & B)]; [congruence|].
    destruct (B2 B) as [B3 _]. destruct Hu as [<-|[<-|[]]]; simpl; auto.
  - destruct OK as (-> & -> & -> & EA). cbn [mf_updates] in Hu.
    destruct Hu as [<-|Hu]; [simpl; auto|]. destruct (has_imag L (ind0 L b bp c)); [|destruct Hu].
    destruct (B2 eq_refl) as [B3 _]. destruct Hu as [<-|[]]. auto.
Qed.
End Gen.

(** Pauli: no imaginary rows *)
Theorem mf_act_pauli : forall nl pf i,
  dphi (pauli_calls K L nl pf) i = act (ly_npauli L) (kern_of K L (pauli_calls K L nl pf)) phi i.
Proof.
  intros nl pf i. unfold kern_of. rewrite act_updates.
  - unfold dphi_of. rewrite run_updates_sum. unfold zeros.
    etransitivity; [apply (Radd_0_l (rth K))|]. rewrite !rsum_flat_map. apply rsum_ext. intros x Hx.
    unfold pauli_calls, generate_kern_pauli in Hx.
    apply in_flat_map in Hx. destruct Hx as (c & Hc & Hx). apply charges_in in Hc.
    apply in_flat_map in Hx. destruct Hx as (b & Hb & Hx). destruct (is_unique L b b c); [|destruct Hx].
    destruct (pauli_call_in K L LO nl pf b c x) as (fm & fp & aa & -> & Ha); auto; try lia.
    cbn [mf_updates kh_updates rsum]. cbn [fst snd]. destruct (Z.eq_dec i (ind0 L b b c)); ring.
  - intros u Hu. apply in_flat_map in Hu. destruct Hu as (x & Hx & Hu).
    unfold pauli_calls, generate_kern_pauli in Hx.
    apply in_flat_map in Hx. destruct Hx as (c & Hc & Hx). apply charges_in in Hc.
    apply in_flat_map in Hx. destruct Hx as (b & Hb & Hx). destruct (is_unique L b b c); [|destruct Hx].
    destruct (pauli_call_in K L LO nl pf b c x) as (fm & fp & aa & -> & Ha); auto; try lia.
    destruct (lo_diag L LO b c) as (A & _); auto; try lia.
    destruct Hu as [<-|[<-|[]]]; simpl; auto.
Qed.
End MF.

(** ** Row replacement: linear algebra *)
Section Rows.
Variable K : CRing.
Local Open Scope rng_scope.
Add Ring KrW : (rth K).
Variable L : Lay.
Hypothesis LO : layout L.
Local Notation act := (act K).

(** if the trace rows cancel and all rows but one trace row vanish, that one vanishes too *)
Lemma last_row : forall size kern phi r, (ly_npauli L <= size)%nat -> (0 <= r < Z.of_nat (ly_npauli L))%Z ->
  (forall j, (j < size)%nat -> rsum (fun i => kern (Z.of_nat i, Z.of_nat j)) (seq 0 (ly_npauli L)) = 0) ->
  (forall i, (i < size)%nat -> Z.of_nat i <> r -> act size kern phi (Z.of_nat i) = 0) ->
  act size kern phi r = 0.
Proof.
  intros size kern phi r Hs Hr TC H.
  assert (T : rsum (fun i => act size kern phi (Z.of_nat i)) (seq 0 (ly_npauli L)) = 0).
  { unfold KernelProofs.act. etransitivity; [apply rsum_swap|]. apply (rsum_0 K). intros j Hj. apply in_seq in Hj.
    rewrite rsum_mul_r, TC by lia. ring. }
  rewrite (rsum_single K _ _ (seq 0 (ly_npauli L)) (Z.to_nat r)) in T.
  - now rewrite Z2Nat.id in T by lia.
  - apply seq_NoDup.
  - apply in_seq. lia.
  - intros y Hy Hne. apply in_seq in Hy. apply H; lia.
Qed.

Lemma act_replaced : forall size m r v phi i,
  act size (replace_row K m r v) phi i = if Z.eq_dec i r then rsum (fun j => v (Z.of_nat j) * phi (Z.of_nat j)) (seq 0 size)
                                         else act size m phi i.
Proof.
  intros. unfold KernelProofs.act, replace_row. cbn [fst snd]. destruct (Z.eq_dec i r); auto.
Qed.

Lemma norm_vec_dot : forall size phi, (ly_npauli L <= size)%nat ->
  rsum (fun k => norm_vec K L (Z.of_nat k) * phi (Z.of_nat k)) (seq 0 size) = phi0_norm K L phi.
Proof.
  intros size phi Hs. unfold phi0_norm.
  assert (NV : forall k, norm_vec K L k = rsum (fun c => rsum (fun b => if Z.eq_dec k (ind0 L b b c) then 1 else 0) (states L c)) (charges L)).
  { intros k. unfold norm_vec. rewrite run_updates_sum, rsum_flat_map. unfold zeros.
    etransitivity; [apply (Radd_0_l (rth K))|]. apply rsum_ext. intros c _. rewrite rsum_map. apply rsum_ext.
    intros b _. reflexivity. }
  rewrite (rsum_ext K _ _ (fun k => rsum (fun c => rsum (fun b => (if Z.eq_dec (Z.of_nat k) (ind0 L b b c) then 1 else 0) * phi (Z.of_nat k))
     (states L c)) (charges L)) (seq 0 size)).
  2:{ intros k _. rewrite NV, <- rsum_mul_r. apply rsum_ext. intros c _. now rewrite <- rsum_mul_r. }
  etransitivity; [apply rsum_swap|]. apply rsum_ext. intros c Hc. apply charges_in in Hc.
  etransitivity; [apply rsum_swap|]. apply rsum_ext. intros b Hb.
  destruct (lo_diag L LO b c ltac:(lia) Hb) as (B & _).
  rewrite (rsum_ext K _ _ (fun k => if Nat.eqb k (Z.to_nat (ind0 L b b c)) then phi (Z.of_nat k) else 0)).
  2:{ intros k Hk. destruct (Z.eq_dec (Z.of_nat k) (ind0 L b b c)) as [e|e], (Nat.eqb_spec k (Z.to_nat (ind0 L b b c))); try ring; lia. }
  rewrite rsum_if_nat; [now rewrite Z2Nat.id by lia|apply seq_NoDup|apply in_seq; lia].
Qed.
End Rows.
