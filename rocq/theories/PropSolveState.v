(** Properties C34 and C35: repeated solving. *)
From Coq Require Import String List Arith Lia ZArith Bool QArith.
From Verif Require Import Base Bits Indexing IndexingProofs RemoveProofs Binom SsqProofs Qn
  PropIndexing DMIndex DMIndexProofs DMReach PropDMIndex CRing Layout Coherences Kernel KernelProofs
  PauliProofs CohProofs CohKernels CohCurrents PropKernel MatrixFree PropSolve SolveState.
Import ListNotations.
Open Scope nat_scope.
Local Notation length := List.length.

Section Props.
Variable K : CRing.
Local Open Scope rng_scope.
Variables (Sel P V : Type) (v0 : V).
Variable lay : Sel -> Lay.
Variable kern_size : Sel -> nat.
Variables fct_shape cur_shape : Sel -> list (list nat).
Variable gen_fct : Sel -> P -> Arrs V -> (nat -> list nat -> V) * bool.
Variable gen_calls : Sel -> P -> Arrs V -> list (call K) * bool.
Variable gen_cur : Sel -> P -> Arrs V -> (Z -> K) -> Arrs V -> (nat -> list nat -> V) * bool.
Variable lin : solmethod -> nat -> nat -> (Z * Z -> K) -> (Z -> K) -> option (Z -> K).
Variable root : ((Z -> K) -> Z -> K) -> nat -> sm -> option ((Z -> K) * bool) * option (Z -> K).

Local Notation St := (St K Sel P V).
Local Notation App := (App K V).
Local Notation op := (op Sel P).
Local Notation solve := (SolveState.solve K Sel P V v0 lay kern_size fct_shape cur_shape gen_fct gen_calls gen_cur lin root).
Local Notation step := (SolveState.step K Sel P V v0 lay kern_size fct_shape cur_shape gen_fct gen_calls gen_cur lin root).
Local Notation run := (SolveState.run K Sel P V v0 lay kern_size fct_shape cur_shape gen_fct gen_calls gen_cur lin root).
Local Notation prepare_kern := (SolveState.prepare_kern K Sel P V v0 lay kern_size fct_shape cur_shape).
Local Notation app_new := (app_new K V v0).
Local Notation with_app := (with_app K Sel P V).

(** ** Specification *)
(** Histories of state selections, parameter and option changes and solve calls. *)
Definition plain (x : op) : Prop :=
  match x with Coherences _ _ _ => False | SetMfree _ _ _ => False | _ => True end.
(** 'solve' and 'lsqr' are the methods solve_kern knows *)
Definition known (o : Opts) : Prop := sm_kind (o_solmethod (prepare_solver o)) <> MOther.
(** the number of equations *)
Definition rows_of (o : Opts) (n : nat) : nat := if o_symq o then n else S n.
Definition norm_at (o : Opts) (n : nat) : Z := if o_symq o then o_norm_row o else Z.of_nat n.

(** What solve should produce from the present selection, parameters and options alone. *)
Record answer := mkAnswer { an_rows : nat; an_cols : nat; an_kern : Z * Z -> K; an_bvec : Z -> K;
  an_phi0 : Z -> K; an_success : bool; an_fct : Arrs V; an_cur : Arrs V }.

Definition right (cq : bool) (sel : Sel) (p : P) (o : Opts) (w : answer) : Prop :=
  let n := kern_size sel in
  let F := mkArrs V (fct_shape sel) (fst (gen_fct sel p (ar_zeros V v0 (fct_shape sel)))) in
  let M := kern_of K (lay sel) (fst (gen_calls sel p F)) in
  let r := norm_at o n in
  an_rows w = rows_of o n /\ an_cols w = n /\
  (forall i j, (o_symq o = true \/ i <> r) -> an_kern w (i, j) = M (i, j)) /\
  an_bvec w = set_entry K zeros r 1 /\
  match lin (sm_kind (o_solmethod (prepare_solver o))) (rows_of o n) n
          (replace_row K M r (norm_vec K (lay sel))) (set_entry K zeros r 1) with
  | Some x => an_phi0 w = x /\ an_success w = true
  | None => an_phi0 w = zeros /\ an_success w = false
  end /\
  an_fct w = F /\
  an_cur w = (if cq then mkArrs V (cur_shape sel) (fst (gen_cur sel p F (an_phi0 w) (ar_zeros V v0 (cur_shape sel))))
              else ar_zeros V v0 (cur_shape sel)).

(** ** Proofs *)
Lemma prepare_solver_idem : forall o, prepare_solver (prepare_solver o) = prepare_solver o.
Proof. intros [[|] r [|] [| | | |t]]; reflexivity. Qed.
Lemma prepare_solver_other : forall o, o_symq (prepare_solver o) = o_symq o /\ o_norm_row (prepare_solver o) = o_norm_row o /\
  o_mfreeq (prepare_solver o) = o_mfreeq o.
Proof. intros [[|] r [|] [| | | |t]]; repeat split. Qed.

Lemma add_all_false : forall rows cols us m, snd (add_all K rows cols us m) = false ->
  fst (add_all K rows cols us m) = run_updates eqZZ us m.
Proof.
  induction us as [|u us IH]; cbn [add_all]; intros m H; auto.
  destruct (inside K rows cols u); [|discriminate]. now rewrite IH.
Qed.

(** the cached arrays fit the selection *)
Record fits (mf : bool) (s : St) : Prop := mkFits {
  ft_phi : a_phi_len K V (s_app K Sel P V s) = Some (kern_size (s_sel K Sel P V s));
  ft_fct : ar_shape V (a_fct K V (s_app K Sel P V s)) = fct_shape (s_sel K Sel P V s);
  ft_cur : ar_shape V (a_cur K V (s_app K Sel P V s)) = cur_shape (s_sel K Sel P V s);
  ft_free : mf = true -> a_dphi K V (s_app K Sel P V s) = Some (kern_size (s_sel K Sel P V s));
  ft_dense : mf = false -> exists d, a_dense K V (s_app K Sel P V s) = Some d /\
    d_rows K d = rows_of (s_opts K Sel P V s) (kern_size (s_sel K Sel P V s)) /\
    d_cols K d = kern_size (s_sel K Sel P V s) /\ d_norm K d = norm_vec K (lay (s_sel K Sel P V s)) }.

Record inv (mf : bool) (s : St) : Prop := mkInv {
  iv_mf : o_mfreeq (s_opts K Sel P V s) = mf;
  iv_sol : a_prepared K V (s_app K Sel P V s) = true -> prepare_solver (s_opts K Sel P V s) = s_opts K Sel P V s;
  iv_hd : a_prepared K V (s_app K Sel P V s) = true -> a_handler K V (s_app K Sel P V s) = if mf then HFree else HMatrix;
  iv_dense0 : mf = true -> a_dense K V (s_app K Sel P V s) = None;
  iv_dphi0 : mf = false -> a_dphi K V (s_app K Sel P V s) = None;
  iv_fit : a_prepared K V (s_app K Sel P V s) = true -> s_changed K Sel P V s = false -> fits mf s }.

(** what prepare_kern leaves *)
Record ready (mf : bool) (s0 s : St) : Prop := mkReady {
  rd_sel : s_sel K Sel P V s = s_sel K Sel P V s0;
  rd_par : s_par K Sel P V s = s_par K Sel P V s0;
  rd_opts : s_opts K Sel P V s = prepare_solver (s_opts K Sel P V s0);
  rd_ch : s_changed K Sel P V s = false;
  rd_prep : a_prepared K V (s_app K Sel P V s) = true;
  rd_hd : a_handler K V (s_app K Sel P V s) = if mf then HFree else HMatrix;
  rd_phi : a_phi_len K V (s_app K Sel P V s) = Some (kern_size (s_sel K Sel P V s0));
  rd_fct : a_fct K V (s_app K Sel P V s) = ar_zeros V v0 (fct_shape (s_sel K Sel P V s0));
  rd_cur : a_cur K V (s_app K Sel P V s) = ar_zeros V v0 (cur_shape (s_sel K Sel P V s0));
  rd_dphi : a_dphi K V (s_app K Sel P V s) = if mf then Some (kern_size (s_sel K Sel P V s0)) else None;
  rd_dense : if mf then a_dense K V (s_app K Sel P V s) = None else
    exists rep, a_dense K V (s_app K Sel P V s) =
      Some (mkDense K (rows_of (s_opts K Sel P V s0) (kern_size (s_sel K Sel P V s0))) (kern_size (s_sel K Sel P V s0))
              zeros zeros (norm_vec K (lay (s_sel K Sel P V s0))) rep) }.

Lemma prepare_ready : forall mf s, inv mf s -> exists s1, prepare_kern s = Some s1 /\ ready mf s s1.
Proof.
  intros mf s [I1 I2 I3 I4 I5 I6]. unfold SolveState.prepare_kern.
  destruct (a_prepared K V (s_app K Sel P V s) && negb (s_changed K Sel P V s))%bool eqn:G.
  - apply andb_true_iff in G as [G1 G2]. apply negb_true_iff in G2.
    specialize (I2 G1). specialize (I3 G1). specialize (I6 G1 G2). destruct I6 as [F1 F2 F3 F4 F5].
    unfold clean_arrays. rewrite I1. destruct mf; cbn [option_map].
    + eexists. split; [reflexivity|]. constructor; cbn; auto; unfold ar_fill0; rewrite ?F2, ?F3; auto.
    + destruct (F5 eq_refl) as (d & ED & D1 & D2 & D3). rewrite ED. cbn [option_map].
      eexists. split; [reflexivity|]. constructor; cbn; auto; unfold ar_fill0; rewrite ?F2, ?F3, ?D1, ?D2, ?D3; auto.
      eexists. reflexivity.
  - eexists. split; [reflexivity|]. rewrite I1. constructor; cbn; auto; destruct mf; auto.
    eexists. reflexivity.
Qed.

Lemma new_inv : forall s, s_app K Sel P V s = app_new -> inv (o_mfreeq (s_opts K Sel P V s)) s.
Proof. intros s E. constructor; rewrite ?E; auto; discriminate. Qed.

(** one solve from a prepared state *)
Definition F_of (s : St) : Arrs V :=
  mkArrs V (fct_shape (s_sel K Sel P V s))
    (fst (gen_fct (s_sel K Sel P V s) (s_par K Sel P V s) (ar_zeros V v0 (fct_shape (s_sel K Sel P V s))))).

Lemma keeps_fit : forall mf s0 s1 a, ready mf s0 s1 -> o_mfreeq (s_opts K Sel P V s0) = mf ->
  a_prepared K V a = true -> a_handler K V a = (if mf then HFree else HMatrix) ->
  a_phi_len K V a = Some (kern_size (s_sel K Sel P V s0)) ->
  ar_shape V (a_fct K V a) = fct_shape (s_sel K Sel P V s0) -> ar_shape V (a_cur K V a) = cur_shape (s_sel K Sel P V s0) ->
  a_dphi K V a = (if mf then Some (kern_size (s_sel K Sel P V s0)) else None) ->
  (if mf then a_dense K V a = None else exists d, a_dense K V a = Some d /\
    d_rows K d = rows_of (s_opts K Sel P V s0) (kern_size (s_sel K Sel P V s0)) /\
    d_cols K d = kern_size (s_sel K Sel P V s0) /\ d_norm K d = norm_vec K (lay (s_sel K Sel P V s0))) ->
  inv mf (with_app a s1).
Proof.
  intros mf s0 s1 a [] HM. intros. destruct (prepare_solver_other (s_opts K Sel P V s0)) as (PS1 & PS2 & PS3).
  constructor; cbn; intros; try (rewrite ?rd_opts0; destruct mf; congruence).
  - rewrite rd_opts0. apply prepare_solver_idem.
  - constructor; cbn; rewrite ?rd_sel0, ?rd_opts0; auto; intros ->; auto.
    unfold rows_of in *. rewrite PS1. auto.
Qed.

Lemma restored : forall (b : bool) (m : Z * Z -> K) r v rep i j, (b = true \/ i <> r) ->
  (if b then replace_row K (replace_row K m r v) r (if b then (fun j => m (r, j)) else rep)
   else replace_row K m r v) (i, j) = m (i, j).
Proof.
  intros [|] m r v rep i j H; unfold replace_row; cbn [fst snd]; destruct (Z.eq_dec i r) as [->|N]; auto.
  destruct H; congruence.
Qed.

Lemma with_with : forall a b s, with_app a (with_app b s) = with_app a s.
Proof. reflexivity. Qed.

Lemma solve_dense : forall cq s, inv false s ->
  inv false (fst (solve cq s)) /\ s_sel K Sel P V (fst (solve cq s)) = s_sel K Sel P V s /\
  s_par K Sel P V (fst (solve cq s)) = s_par K Sel P V s /\
  s_opts K Sel P V (fst (solve cq s)) = prepare_solver (s_opts K Sel P V s) /\
  (snd (solve cq s) = false -> known (s_opts K Sel P V s) ->
   exists w d, right cq (s_sel K Sel P V s) (s_par K Sel P V s) (s_opts K Sel P V s) w /\
     let a := s_app K Sel P V (fst (solve cq s)) in
     a_dense K V a = Some d /\ d_rows K d = an_rows w /\ d_cols K d = an_cols w /\ d_kern K d = an_kern w /\
     d_bvec K d = an_bvec w /\ a_phi0 K V a = an_phi0 w /\ a_success K V a = Some (an_success w) /\
     a_fct K V a = an_fct w /\ a_cur K V a = an_cur w).
Proof.
  intros cq s I. destruct (prepare_ready false s I) as (s1 & E1 & R). unfold SolveState.solve. rewrite E1.
  pose proof (iv_mf _ _ I) as IM. pose proof R as R'.
  destruct R as [R1 R2 R3 R4 R5 R6 R7 R8 R9 R10 (rep & R11)].
  destruct (prepare_solver_other (s_opts K Sel P V s)) as (PS1 & PS2 & PS3).
  rewrite R1, R2, R8. destruct (gen_fct _ _ _) as [f r1] eqn:GF.
  rewrite R3, PS3, IM.
  set (sel := s_sel K Sel P V s) in *. set (p := s_par K Sel P V s) in *. set (o := s_opts K Sel P V s) in *.
  set (n := kern_size sel) in *.
  destruct r1.
  { cbn [fst snd]. split; [|split; [exact R1|split; [exact R2|split; [exact R3|discriminate]]]].
    apply (keeps_fit false s s1); auto; unfold set_fct; cbn; rewrite ?R8, ?R9; auto. rewrite R11. eexists. split; [reflexivity|]. cbn. auto. }
  cbn [set_fct a_dense]. rewrite R11.
  unfold generate_kern. cbn [with_app s_sel s_par a_fct set_fct a_handler]. rewrite R1, R2, R6, R8. cbn [ar_zeros ar_shape].
  destruct (gen_calls sel p _) as [calls r2] eqn:GC.
  destruct (add_all K _ _ _ _) as [m out] eqn:AA.
  destruct (out || r2)%bool eqn:OR.
  { cbn [fst snd]. split; [|split; [exact R1|split; [exact R2|split; [exact R3|discriminate]]]].
    apply (keeps_fit false s s1); auto; cbn; rewrite ?R8, ?R9; auto. eexists. split; [reflexivity|]. cbn. auto. }
  apply orb_false_iff in OR as [-> ->].
  assert (EM : m = kern_of K (lay sel) calls).
  { pose proof (add_all_false (rows_of o n) n (flat_map (kh_updates K (lay sel)) calls) zeros) as Q. cbn [d_rows d_cols d_kern] in AA.
    rewrite AA in Q. exact (Q eq_refl). }
  set (d1 := mkDense K _ _ m _ _ _).
  set (a1 := set_dense K V d1 _).
  set (a2 := solve_kern K V lin (prepare_solver o) d1 a1).
  assert (A2 : a_prepared K V a2 = true /\ a_handler K V a2 = HMatrix /\ a_phi_len K V a2 = Some n /\
     a_fct K V a2 = mkArrs V (fct_shape sel) f /\ a_cur K V a2 = ar_zeros V v0 (cur_shape sel) /\ a_dphi K V a2 = None /\
     a_kh_phi0 K V a2 = a_phi0 K V a2 /\
     exists d, a_dense K V a2 = Some d /\ d_rows K d = rows_of o n /\ d_cols K d = n /\ d_norm K d = norm_vec K (lay sel) /\
       d_bvec K d = set_entry K zeros (norm_at o n) 1 /\
       (forall i j, (o_symq o = true \/ i <> norm_at o n) -> d_kern K d (i, j) = m (i, j))).
  { unfold a2, solve_kern. set (att := match sm_kind _ with MOther => _ | _ => _ end).
    cbn [d_rows d_cols d_kern d_bvec d_norm d_replaced d1].
    assert (RN : (if o_symq (prepare_solver o) then o_norm_row (prepare_solver o) else Z.of_nat (rows_of o n - 1)) = norm_at o n).
    { unfold rows_of, norm_at. rewrite PS1, PS2. destruct (o_symq o); auto. cbn. f_equal. lia. }
    assert (HH : a_handler K V a1 = HMatrix) by (cbn; exact R6).
    rewrite RN, HH. rewrite PS1.
    destruct att as [[[k x]|]|]; [destruct (match a_phi_len K V a1 with Some p0 => k =? p0 | None => false end);
      [|destruct (k =? 1)]| |]; cbn; rewrite ?R5, ?R6, ?R7, ?R8, ?R9, ?R10; (repeat (split; [reflexivity|]));
      (eexists; split; [reflexivity|]); cbn; (repeat (split; [reflexivity|])); intros i j HH'; now apply restored. }
  destruct A2 as (B1 & B2 & B3 & B4 & B5 & B6 & B7 & d2 & B8 & B9 & B10 & B11 & B12 & B13).
  rewrite B4, B5, B7. cbn [ar_zeros ar_shape].
  assert (CORE : known o -> exists w, right cq sel p o w /\ an_rows w = d_rows K d2 /\ an_cols w = d_cols K d2 /\
     an_kern w = d_kern K d2 /\ an_bvec w = d_bvec K d2 /\ an_phi0 w = a_phi0 K V a2 /\ a_success K V a2 = Some (an_success w) /\
     an_fct w = mkArrs V (fct_shape sel) f /\
     an_cur w = if cq then mkArrs V (cur_shape sel) (fst (gen_cur sel p (mkArrs V (fct_shape sel) f) (a_phi0 K V a2) (ar_zeros V v0 (cur_shape sel))))
                else ar_zeros V v0 (cur_shape sel)).
  { intros KN. unfold known in KN.
    set (res := lin (sm_kind (o_solmethod (prepare_solver o))) (rows_of o n) n
          (replace_row K m (norm_at o n) (norm_vec K (lay sel))) (set_entry K zeros (norm_at o n) 1)).
    assert (RES : match res with
       | Some x => a_phi0 K V a2 = x /\ a_success K V a2 = Some true
       | None => a_phi0 K V a2 = zeros /\ a_success K V a2 = Some false end).
    { unfold a2, solve_kern. cbn [d_rows d_cols d_kern d_bvec d_norm d_replaced d1].
      assert (RN : (if o_symq (prepare_solver o) then o_norm_row (prepare_solver o) else Z.of_nat (rows_of o n - 1)) = norm_at o n).
      { unfold rows_of, norm_at. rewrite PS1, PS2. destruct (o_symq o); auto. cbn. f_equal. lia. }
      rewrite RN. fold res. unfold res in *. clear res.
      assert (PL : a_phi_len K V a1 = Some n) by (cbn; exact R7). rewrite PL.
      destruct (sm_kind (o_solmethod (prepare_solver o))) eqn:SK; [| |congruence];
      destruct (lin _ _ _ _ _) as [x|]; cbn [option_map]; try rewrite Nat.eqb_refl; cbn; auto. }
    exists (mkAnswer (d_rows K d2) (d_cols K d2) (d_kern K d2) (d_bvec K d2) (a_phi0 K V a2)
             (match res with Some _ => true | None => false end) (mkArrs V (fct_shape sel) f)
             (if cq then mkArrs V (cur_shape sel) (fst (gen_cur sel p (mkArrs V (fct_shape sel) f) (a_phi0 K V a2) (ar_zeros V v0 (cur_shape sel))))
                else ar_zeros V v0 (cur_shape sel))).
    cbn. split; [|repeat split; auto; destruct res; apply RES].
    unfold right. cbn. rewrite GF. cbn [fst]. rewrite GC. cbn [fst]. rewrite <- EM.
    repeat (split; [now auto|]). fold n. fold res. split; [|auto]. destruct res; destruct RES; auto. }
  assert (IV2 : inv false (with_app a2 s1)).
  { apply (keeps_fit false s s1); auto; rewrite ?B4, ?B5; auto. exists d2. auto. }
  destruct cq.
  - destruct (gen_cur sel p _ _ _) as [c r3] eqn:GU. cbn [fst snd].
    split; [|split; [exact R1|split; [exact R2|split; [exact R3|]]]].
    + apply (keeps_fit false s s1); auto; cbn; rewrite ?B4, ?B5; auto. exists d2. auto.
    + intros -> KN. destruct (CORE KN) as (w & W & W1 & W2 & W3 & W4 & W5 & W6 & W7 & W8).
      exists w, d2. split; auto. cbn. rewrite B4, B5, B8, W1, W2, W3, W4, W5, W6, W7, W8. cbn. repeat split; auto.
  - cbn [fst snd]. split; [exact IV2|split; [exact R1|split; [exact R2|split; [exact R3|]]]].
    intros _ KN. destruct (CORE KN) as (w & W & W1 & W2 & W3 & W4 & W5 & W6 & W7 & W8).
    exists w, d2. split; auto. cbn. rewrite B4, B5, B8, W1, W2, W3, W4, W5, W6, W7, W8. repeat split; auto.
Qed.

(** the matrix-free counterpart; [v] is the vector of the last evaluation *)
Definition right_free (cq : bool) (sel : Sel) (p : P) (o : Opts) (phi : Z -> K) (ok : bool) (F cur : Arrs V) : Prop :=
  let n := kern_size sel in
  F = mkArrs V (fct_shape sel) (fst (gen_fct sel p (ar_zeros V v0 (fct_shape sel)))) /\
  let calls := gen_calls sel p F in
  let found := root (generate_vec K (lay sel) (fst calls) (o_norm_row o)) n (o_solmethod (prepare_solver o)) in
  forall v, snd found = Some v ->
    (if snd calls then phi = zeros /\ ok = false
     else match fst found with Some (x, b) => phi = x /\ ok = b | None => phi = zeros /\ ok = false end) /\
    cur = (if cq then mkArrs V (cur_shape sel)
                        (fst (gen_cur sel p F (if snd calls then phi_init K else v) (ar_zeros V v0 (cur_shape sel))))
           else ar_zeros V v0 (cur_shape sel)).

Lemma solve_free : forall cq s, inv true s ->
  inv true (fst (solve cq s)) /\ s_sel K Sel P V (fst (solve cq s)) = s_sel K Sel P V s /\
  s_par K Sel P V (fst (solve cq s)) = s_par K Sel P V s /\
  s_opts K Sel P V (fst (solve cq s)) = prepare_solver (s_opts K Sel P V s) /\
  (snd (solve cq s) = false -> 
     let a := s_app K Sel P V (fst (solve cq s)) in
     exists ok, a_success K V a = Some ok /\ a_phi_len K V a = Some (kern_size (s_sel K Sel P V s)) /\
       right_free cq (s_sel K Sel P V s) (s_par K Sel P V s) (s_opts K Sel P V s) (a_phi0 K V a) ok (a_fct K V a) (a_cur K V a)).
Proof.
  intros cq s I. destruct (prepare_ready true s I) as (s1 & E1 & R). unfold SolveState.solve. rewrite E1.
  pose proof (iv_mf _ _ I) as IM. pose proof R as R'.
  destruct R as [R1 R2 R3 R4 R5 R6 R7 R8 R9 R10 R11].
  destruct (prepare_solver_other (s_opts K Sel P V s)) as (PS1 & PS2 & PS3).
  rewrite R1, R2, R8. destruct (gen_fct _ _ _) as [f r1] eqn:GF.
  rewrite R3, PS3, IM.
  set (sel := s_sel K Sel P V s) in *. set (p := s_par K Sel P V s) in *. set (o := s_opts K Sel P V s) in *.
  set (n := kern_size sel) in *.
  destruct r1.
  { cbn [fst snd]. split; [|split; [exact R1|split; [exact R2|split; [exact R3|discriminate]]]].
    apply (keeps_fit true s s1); auto; unfold set_fct; cbn; rewrite ?R8, ?R9; auto. }
  set (a1 := set_fct K V f (s_app K Sel P V s1)).
  assert (F1 : a_fct K V a1 = mkArrs V (fct_shape sel) f) by (cbn; now rewrite R8).
  set (a2 := solve_matrix_free _ _ _ _ _ _ _ _ a1).
  assert (A2 : a_prepared K V a2 = true /\ a_handler K V a2 = HFree /\ a_phi_len K V a2 = Some n /\
     a_fct K V a2 = mkArrs V (fct_shape sel) f /\ a_cur K V a2 = ar_zeros V v0 (cur_shape sel) /\ a_dphi K V a2 = Some n /\
     a_dense K V a2 = None /\
     exists ok, a_success K V a2 = Some ok /\
       let calls := gen_calls sel p (mkArrs V (fct_shape sel) f) in
       let found := root (generate_vec K (lay sel) (fst calls) (o_norm_row o)) n (o_solmethod (prepare_solver o)) in
       forall v, snd found = Some v ->
         (if snd calls then a_phi0 K V a2 = zeros /\ ok = false
          else match fst found with Some (x, b) => a_phi0 K V a2 = x /\ ok = b | None => a_phi0 K V a2 = zeros /\ ok = false end) /\
         a_kh_phi0 K V a2 = if snd calls then phi_init K else v).
  { unfold a2, solve_matrix_free. cbn [with_app s_sel s_par s_opts]. rewrite R1, R2, F1, R3, PS2.
    cbn [a1 set_fct a_handler a_dphi a_prepared a_dense a_phi_len a_kh_phi0 a_sol0 a_cur]. rewrite R5, R6, R7, ?R8, R9, R10, R11.
    destruct (gen_calls sel p _) as [calls raised]. cbn [fst snd].
    destruct (root _ _ _) as [res last]. cbn [fst snd].
    destruct raised; [|destruct res as [[x b]|]]; cbn; (repeat (split; [reflexivity|]));
    (eexists; split; [reflexivity|]); intros v ->; auto. }
  destruct A2 as (B1 & B2 & B3 & B4 & B5 & B6 & B7 & ok & B8 & B9). rewrite B4, B5. cbn [ar_zeros ar_shape].
  destruct cq.
  - destruct (gen_cur sel p _ _ _) as [c r3] eqn:GU. cbn [fst snd].
    split; [|split; [exact R1|split; [exact R2|split; [exact R3|]]]].
    + apply (keeps_fit true s s1); auto; cbn; rewrite ?B4, ?B5; auto.
    + intros ->. exists ok. cbn. split; [exact B8|]. split; [exact B3|]. unfold right_free. fold n. rewrite GF. cbn [fst]. split; [exact B4|].
      cbv zeta in *. rewrite B4, B5. intros v Hv. destruct (B9 v Hv) as [X Y]. split; [exact X|]. cbn [ar_zeros ar_shape].
      rewrite <- Y. change (fun (_ : nat) (_ : list nat) => v0) with (ar_val V (ar_zeros V v0 (cur_shape sel))).
      cbn [ar_zeros ar_val] in *. now rewrite GU.
  - cbn [fst snd]. split; [|split; [exact R1|split; [exact R2|split; [exact R3|]]]].
    + apply (keeps_fit true s s1); auto; rewrite ?B4, ?B5; auto.
    + intros _. exists ok. cbn. split; [exact B8|]. split; [exact B3|]. unfold right_free. fold n. rewrite GF. cbn [fst]. split; [exact B4|].
      cbv zeta in *. rewrite B4, B5. intros v Hv. destruct (B9 v Hv) as [X Y]. split; [exact X|]. reflexivity.
Qed.

Lemma step_inv : forall mf x s, plain x -> inv mf s -> inv mf (step s x).
Proof.
  intros mf x s PL I. destruct x as [p|z|z|b|r|m|b|cq]; cbn [plain] in PL; try contradiction; unfold SolveState.step.
  - destruct I as [I1 I2 I3 I4 I5 I6]. constructor; cbn; auto. intros A B. destruct (I6 A B). constructor; auto.
  - destruct I as [I1 I2 I3 I4 I5 I6]. constructor; cbn; auto. discriminate.
  - destruct I as [I1 I2 I3 I4 I5 I6]. destruct (Bool.eqb b _); constructor; cbn; auto; discriminate.
  - destruct I as [I1 I2 I3 I4 I5 I6]. constructor; cbn; auto.
    + intros A. transitivity (with_norm_row r (prepare_solver (s_opts K Sel P V s))); [|now rewrite (I2 A)].
      destruct (s_opts K Sel P V s) as [[|] r' [|] [| | | |t]]; reflexivity.
    + intros A B. destruct (I6 A B) as [F1 F2 F3 F4 F5]. constructor; auto.
  - destruct I as [I1 I2 I3 I4 I5 I6]. destruct (prepare_solver_other (with_solmethod m (s_opts K Sel P V s))) as (P1 & P2 & P3).
    constructor; cbn [s_opts s_app s_sel s_changed]; auto.
    + rewrite P3. exact I1.
    + intros _. apply prepare_solver_idem.
    + intros A B. destruct (I6 A B) as [F1 F2 F3 F4 F5]. constructor; auto. cbn [s_opts s_app s_sel]. unfold rows_of in *. rewrite P1. exact F5.
  - destruct mf; [apply solve_free|apply solve_dense]; auto.
Qed.

Lemma run_inv : forall h s mf, Forall plain h -> inv mf s -> inv mf (run h s).
Proof.
  induction h as [|x h IH]; intros s mf F I; auto. inversion F; subst. cbn. apply IH; auto. now apply step_inv.
Qed.

(** *** C34.  Full claim: for every history including remove_coherences and mfreeq changes; those are refuted below.
    After every history of selections, parameter changes, option changes and solve calls (including ones that
    raised), a solve works on arrays of the current size and gives what the present selection, parameters and options
    determine. *)
Theorem C34_solve_partial : forall h s0 cq, s_app K Sel P V s0 = app_new -> Forall plain h ->
  o_mfreeq (s_opts K Sel P V s0) = false ->
  let s := run h s0 in
  let s' := fst (solve cq s) in
  snd (solve cq s) = false -> known (s_opts K Sel P V s) ->
  exists w d, right cq (s_sel K Sel P V s) (s_par K Sel P V s) (s_opts K Sel P V s) w /\
    a_dense K V (s_app K Sel P V s') = Some d /\ d_rows K d = an_rows w /\ d_cols K d = an_cols w /\
    d_kern K d = an_kern w /\ d_bvec K d = an_bvec w /\
    a_phi0 K V (s_app K Sel P V s') = an_phi0 w /\ a_success K V (s_app K Sel P V s') = Some (an_success w) /\
    a_fct K V (s_app K Sel P V s') = an_fct w /\ a_cur K V (s_app K Sel P V s') = an_cur w.
Proof.
  intros h s0 cq E F MF s s' NR KN. pose proof (new_inv s0 E) as I0. rewrite MF in I0.
  pose proof (run_inv h s0 false F I0) as I. apply (solve_dense cq _ I); auto.
Qed.

Theorem C34_matrix_free_partial : forall h s0 cq, s_app K Sel P V s0 = app_new -> Forall plain h ->
  o_mfreeq (s_opts K Sel P V s0) = true ->
  let s := run h s0 in
  let a := s_app K Sel P V (fst (solve cq s)) in
  snd (solve cq s) = false ->
  exists ok, a_success K V a = Some ok /\ a_phi_len K V a = Some (kern_size (s_sel K Sel P V s)) /\
    right_free cq (s_sel K Sel P V s) (s_par K Sel P V s) (s_opts K Sel P V s) (a_phi0 K V a) ok (a_fct K V a) (a_cur K V a).
Proof.
  intros h s0 cq E F MF s a NR. pose proof (new_inv s0 E) as I0. rewrite MF in I0.
  pose proof (run_inv h s0 true F I0) as I. apply (solve_free cq _ I); auto.
Qed.

(** *** C35: success means that the method ran on the current kernel.  Full claim: for every accepted value of solmethod.
    Proved for the values for which solve_kern calls a solver; [C35_lsmr_refuted] and [C35_unknown_refuted] are the others. *)
Theorem C35_success_partial : forall h s0 cq, s_app K Sel P V s0 = app_new -> Forall plain h ->
  o_mfreeq (s_opts K Sel P V s0) = false ->
  let s := run h s0 in
  let a := s_app K Sel P V (fst (solve cq s)) in
  let o := s_opts K Sel P V s in
  let n := kern_size (s_sel K Sel P V s) in
  let F := mkArrs V (fct_shape (s_sel K Sel P V s))
             (fst (gen_fct (s_sel K Sel P V s) (s_par K Sel P V s) (ar_zeros V v0 (fct_shape (s_sel K Sel P V s))))) in
  let M := kern_of K (lay (s_sel K Sel P V s)) (fst (gen_calls (s_sel K Sel P V s) (s_par K Sel P V s) F)) in
  snd (solve cq s) = false -> known o ->
  a_success K V a = Some true ->
  lin (sm_kind (o_solmethod (prepare_solver o))) (rows_of o n) n
      (replace_row K M (norm_at o n) (norm_vec K (lay (s_sel K Sel P V s)))) (set_entry K zeros (norm_at o n) 1)
    = Some (a_phi0 K V a).
Proof.
  intros h s0 cq E F MF s a o n FF M NR KN SU.
  destruct (C34_solve_partial h s0 cq E F MF NR KN) as (w & d & W & _ & _ & _ & _ & _ & PH & SC & _).
  destruct W as (_ & _ & _ & _ & RES & _). fold s in RES, PH, SC. fold a in PH, SC. fold o n FF M in RES. rewrite SU in SC. injection SC as SC.
  destruct (lin _ _ _ _ _) as [x|]; destruct RES as [R1 R2]; [congruence|]. rewrite R2 in SC. discriminate.
Qed.

(** which routine is called for which request *)
Theorem C35_method : forall o, o_mfreeq o = false ->
  o_solmethod (prepare_solver o) =
    match o_symq o, o_solmethod o with
    | true, SmNone => SmSolve
    | true, m => m
    | false, SmLsmr => SmLsmr
    | false, _ => SmLsqr
    end.
Proof. intros [[|] r [|] [| | | |t]]; cbn; congruence. Qed.
End Props.
Print Assumptions C34_solve_partial.
Print Assumptions C34_matrix_free_partial.
Print Assumptions C35_success_partial.
Print Assumptions C35_method.

(** ** With the first-order approaches: after every history a successful solve gives a stationary state of the current
    kernel, of unit trace. *)
Section Stationary.
Variable K : CRing.
Local Open Scope rng_scope.
Variables (P V : Type) (v0 : V).
Variable kern_size : Lay -> nat.
Variables fct_shape cur_shape : Lay -> list (list nat).
Variable gen_fct : Lay -> P -> Arrs V -> (nat -> list nat -> V) * bool.
Variable gen_calls : Lay -> P -> Arrs V -> list (call K) * bool.
Variable gen_cur : Lay -> P -> Arrs V -> (Z -> K) -> Arrs V -> (nat -> list nat -> V) * bool.
Variable lin : solmethod -> nat -> nat -> (Z * Z -> K) -> (Z -> K) -> option (Z -> K).
Variable root : ((Z -> K) -> Z -> K) -> nat -> sm -> option ((Z -> K) * bool) * option (Z -> K).
Local Notation solve := (SolveState.solve K Lay P V v0 (fun L => L) kern_size fct_shape cur_shape gen_fct gen_calls gen_cur lin root).
Local Notation run := (SolveState.run K Lay P V v0 (fun L => L) kern_size fct_shape cur_shape gen_fct gen_calls gen_cur lin root).

Theorem C34_stationary_partial : forall h s0 cq n name si nl E,
  s_app K Lay P V s0 = app_new K V v0 -> Forall (plain Lay P) h -> o_mfreeq (s_opts K Lay P V s0) = false ->
  let s := run h s0 in
  let L := s_sel K Lay P V s in
  let o := s_opts K Lay P V s in
  let a := s_app K Lay P V (fst (solve cq s)) in
  let F := mkArrs V (fct_shape L) (fst (gen_fct L (s_par K Lay P V s) (ar_zeros V v0 (fct_shape L)))) in
  let calls := fst (gen_calls L (s_par K Lay P V s) F) in
  (1 <= n)%nat -> ix_of name n <> IxSsq -> system n name si L ->
  first_order K L nl E (kern_size L) calls ->
  (0 <= o_norm_row o < Z.of_nat (ly_npauli L))%Z ->
  known o -> exact_solver K (rows_of o (kern_size L)) (kern_size L) (fun m => lin m (rows_of o (kern_size L)) (kern_size L)) ->
  snd (solve cq s) = false -> a_success K V a = Some true ->
  stationary K (kern_size L) (kern_of K L calls) (a_phi0 K V a) /\ trace_of K L (a_phi0 K V a) = 1.
Proof.
  intros h s0 cq n name si nl E EA PL MF s L o a F calls Hn Hix SY FO Hr KN EX NR SU.
  pose proof (C35_success_partial K Lay P V v0 (fun L => L) kern_size fct_shape cur_shape gen_fct gen_calls gen_cur lin root
                h s0 cq EA PL MF NR KN SU) as LE.
  fold s in LE. fold L o a F calls in LE. apply (EX (sm_kind (o_solmethod (prepare_solver o)))) in LE.
  destruct (fo_trace K n name si L Hn Hix SY nl E (kern_size L) calls FO) as (NP & TC).
  unfold rows_of, norm_at in LE. destruct (o_symq o).
  - apply (C31_row_replacement K n name si L Hn Hix SY (kern_size L) (kern_of K L calls) (o_norm_row o) NP Hr TC). exact LE.
  - apply (C31_extra_row K n name si L Hn Hix SY (kern_size L) (kern_of K L calls) NP). exact LE.
Qed.
End Stationary.
Print Assumptions C34_stationary_partial.

(** ** A one-level dot (states 0 and 1) with the Pauli kernel; the parameter is one of the two rates *)
Section One.
Local Notation K := QRing.
Definition one_L : Lay := lay_of (snd (call_init KDM 1 "charge")).
Definition one_calls (L : Lay) (p : Z) (_ : Arrs nat) : list (call K) * bool :=
  (pauli_calls K L 1 (fun l k q => if q then qz p else qz 1), false).
(** Cramer's rule on the first and the last equation; the result is returned if it solves all the equations *)
Definition one_cramer (rows : nat) (M : Z * Z -> K) (b : Z -> K) : Z -> K :=
  let r := Z.of_nat (rows - 1) in
  let det := Qcanon.Qcminus (Qcanon.Qcmult (M (0, 0)%Z) (M (r, 1%Z))) (Qcanon.Qcmult (M (0, 1)%Z) (M (r, 0%Z))) in
  fun i => if Z.eq_dec i 0
     then Qcanon.Qcdiv (Qcanon.Qcminus (Qcanon.Qcmult (b 0%Z) (M (r, 1%Z))) (Qcanon.Qcmult (M (0, 1)%Z) (b r))) det
     else Qcanon.Qcdiv (Qcanon.Qcminus (Qcanon.Qcmult (M (0, 0)%Z) (b r)) (Qcanon.Qcmult (b 0%Z) (M (r, 0%Z)))) det.
Definition one_lin (m : solmethod) (rows cols : nat) (M : Z * Z -> K) (b : Z -> K) : option (Z -> K) :=
  let x := one_cramer rows M b in
  if forallb (fun i => if Qcanon.Qc_eq_dec (act K cols M x (Z.of_nat i)) (b (Z.of_nat i)) then true else false) (seq 0 rows)
  then Some x else None.
Lemma one_lin_exact : forall rows size, exact_solver K rows size (fun m => one_lin m rows size).
Proof.
  intros rows size m M b x. unfold one_lin. destruct (forallb _ _) eqn:E; [|discriminate]. intros H. injection H as <-.
  intros i Hi. rewrite forallb_forall in E. specialize (E i ltac:(apply in_seq; lia)). destruct (Qcanon.Qc_eq_dec _ _); [auto|discriminate].
Qed.
Definition one_root (f : (Z -> K) -> Z -> K) (n : nat) (m : sm) : option ((Z -> K) * bool) * option (Z -> K) :=
  match m with
  | SmOther "krylov" => (Some (fun _ => qz 7, true), Some (fun _ => qz 7))
  | _ => (None, None)                (* no such method: raises before any evaluation *)
  end.
Definition one_solve := SolveState.solve K Lay Z nat 0 (fun L => L) ly_npauli (fun _ => []) (fun _ => [[1]])
  (fun _ _ a => (ar_val nat a, false)) one_calls (fun _ _ _ phi _ => (fun _ _ => Z.to_nat (Qround.Qfloor (Qcanon.this (phi 0%Z))), false))
  one_lin one_root.
Definition one_run := SolveState.run K Lay Z nat 0 (fun L => L) ly_npauli (fun _ => []) (fun _ => [[1]])
  (fun _ _ a => (ar_val nat a, false)) one_calls (fun _ _ _ phi _ => (fun _ _ => Z.to_nat (Qround.Qfloor (Qcanon.this (phi 0%Z))), false))
  one_lin one_root.
Definition one_new (symq mf : bool) : St K Lay Z nat :=
  mkSt K Lay Z nat one_L true 1%Z (mkOpts symq 0 mf SmNone) (app_new K nat 0).
Local Notation app s := (s_app K Lay Z nat s).

(** C34 in action: two solves with different rates, a change of symq in between *)
Example C34_case :
  let s := one_run [Solve _ _ true; ParChange _ _ 3%Z; SetSymq _ _ false; Solve _ _ false; SetSymq _ _ true] (one_new true false) in
  let r := one_solve false s in
  Forall (plain Lay Z) [Solve _ _ true; ParChange _ _ 3%Z; SetSymq _ _ false; Solve _ _ false; SetSymq _ _ true] /\
  snd r = false /\ known (s_opts K Lay Z nat s) /\
  a_success K nat (app (fst r)) = Some true /\
  map (a_phi0 K nat (app (fst r))) [0; 1]%Z = [Qcanon.Q2Qc (3 # 4); Qcanon.Q2Qc (1 # 4)].
Proof.
  cbv zeta. split; [repeat constructor|]. split; [vm_compute; reflexivity|]. split; [vm_compute; discriminate|].
  split; [vm_compute; reflexivity|]. vm_compute. reflexivity.
Qed.

(** the hypotheses of C34_stationary_partial hold for it *)
Lemma one_stationary : forall h, Forall (plain Lay Z) h ->
  let s := one_run h (one_new true false) in
  s_sel K Lay Z nat s = one_L -> o_norm_row (s_opts K Lay Z nat s) = 0%Z -> known (s_opts K Lay Z nat s) ->
  snd (one_solve false s) = false -> a_success K nat (app (fst (one_solve false s))) = Some true ->
  stationary K (ly_npauli one_L)
    (kern_of K one_L (pauli_calls K one_L 1 (fun l k q => if q then qz (s_par K Lay Z nat s) else qz 1)))
    (a_phi0 K nat (app (fst (one_solve false s)))) /\
  trace_of K one_L (a_phi0 K nat (app (fst (one_solve false s)))) = (r1 : K).
Proof.
  intros h PL s ES EO KN NR SU.
  pose proof (C34_stationary_partial K Z nat 0 ly_npauli (fun _ => []) (fun _ => [[1]]) (fun _ _ a => (ar_val nat a, false)) one_calls
    (fun _ _ _ phi _ => (fun _ _ => Z.to_nat (Qround.Qfloor (Qcanon.this (phi 0%Z))), false)) one_lin one_root
    h (one_new true false) false 1 "charge" (fst (call_init KDM 1 "charge")) 1 (fun _ => qz 0) eq_refl PL eq_refl) as H.
  fold one_solve in H. fold one_run in H. fold s in H. cbv zeta in H. rewrite ES, EO in H.
  apply H; clear H; auto.
  - discriminate.
  - apply sys_plain. apply reach_init. reflexivity.
  - apply fo_pauli.
  - split; reflexivity || discriminate.
  - apply one_lin_exact.
Qed.
Example C34_stationary_case :
  let s := one_run [Solve _ _ true; ParChange _ _ 3%Z; SetSymq _ _ false; Solve _ _ false; SetSymq _ _ true] (one_new true false) in
  trace_of K one_L (a_phi0 K nat (app (fst (one_solve false s)))) = qz 1.
Proof.
  apply one_stationary; [repeat constructor| | |vm_compute; discriminate| |]; vm_compute; reflexivity.
Qed.

(** 'lsmr' is accepted for symq=False, but no solver is called for it: the solution of the previous parameters is
    reported with success=True. *)
Definition not_stationary (s : St K Lay Z nat) (phi : Z -> K) : Prop :=
  ~ stationary K 2 (kern_of K one_L (fst (one_calls one_L (s_par K Lay Z nat s) (mkArrs nat [] (fun _ _ => 0))))) phi.
Theorem C35_lsmr_refuted :
  let s := one_run [Solve _ _ false; ParChange _ _ 3%Z; SetMethod _ _ SmLsmr] (one_new false false) in
  let r := one_solve false s in
  snd r = false /\ a_success K nat (app (fst r)) = Some true /\
  o_solmethod (s_opts K Lay Z nat (fst r)) = SmLsmr /\ not_stationary s (a_phi0 K nat (app (fst r))).
Proof.
  cbv zeta. split; [vm_compute; reflexivity|]. split; [vm_compute; reflexivity|]. split; [vm_compute; reflexivity|].
  intros H. specialize (H 0%nat ltac:(lia)). vm_compute in H. discriminate.
Qed.
(** the same for a name solve_kern does not know, with symq=True *)
Theorem C35_unknown_refuted :
  let s := one_run [Solve _ _ false; ParChange _ _ 3%Z; SetMethod _ _ (SmOther "bicg")] (one_new true false) in
  let r := one_solve false s in
  snd r = false /\ a_success K nat (app (fst r)) = Some true /\ not_stationary s (a_phi0 K nat (app (fst r))).
Proof.
  cbv zeta. split; [vm_compute; reflexivity|]. split; [vm_compute; reflexivity|].
  intros H. specialize (H 0%nat ltac:(lia)). vm_compute in H. discriminate.
Qed.

(** mfreeq switched on after a solve: the handler is the old one, so the solve fails; a new approach object with the
    same options succeeds. *)
Theorem C34_mfreeq_on_refuted :
  let s := one_run [Solve _ _ false; SetMethod _ _ (SmOther "krylov"); SetMfree _ _ true] (one_new true false) in
  a_success K nat (app (fst (one_solve false s))) = Some false /\
  a_success K nat (app (fst (one_solve false (with_app K Lay Z nat (app_new K nat 0) s)))) = Some true.
Proof. vm_compute. auto. Qed.
(** mfreeq switched off after a solve: solve raises (there is no kern to fill with zeros) *)
Theorem C34_mfreeq_off_refuted :
  let s := one_run [Solve _ _ false; SetMfree _ _ false] (one_new true true) in
  snd (one_solve false s) = true /\
  snd (one_solve false (with_app K Lay Z nat (app_new K nat 0) s)) = false.
Proof. vm_compute. auto. Qed.
(** A matrix-free solve with an unknown method name fails and sets phi0 to zero, but the current is computed from the
    last vector of the previous solve (7 here; 0 for a new approach object). *)
Theorem C34_matrix_free_current_refuted :
  let s := one_run [Solve _ _ true; SetMethod _ _ (SmOther "newton")] (one_new true true) in
  let cur a := ar_val nat (a_cur K nat a) 0 [0] in
  let r := one_solve true s in let r' := one_solve true (with_app K Lay Z nat (app_new K nat 0) s) in
  (snd r, a_success K nat (app (fst r)), cur (app (fst r))) = (false, Some false, 7) /\
  (snd r', a_success K nat (app (fst r')), cur (app (fst r'))) = (false, Some false, 0).
Proof. vm_compute. auto. Qed.
End One.
Print Assumptions C35_lsmr_refuted.
Print Assumptions C35_unknown_refuted.
Print Assumptions C34_mfreeq_on_refuted.
Print Assumptions C34_mfreeq_off_refuted.
Print Assumptions C34_matrix_free_current_refuted.

(** ** Two levels with the 1vN kernel *)
Section Two.
Local Notation K := ZRing.
Definition pair_calls (L : Lay) (_ : unit) (_ : Arrs nat) : list (call K) * bool :=
  (vn1_calls K L 1 ex_T ex_F ex_EZ, false).
Definition pair_solve := SolveState.solve K Lay unit nat 0 (fun L => L) ly_ndm0r (fun _ => []) (fun _ => [])
  (fun _ _ a => (ar_val nat a, false)) pair_calls (fun _ _ _ _ c => (ar_val nat c, false))
  (fun _ _ _ _ _ => Some zeros) (fun _ _ _ => (None, None)).
Definition pair_run := SolveState.run K Lay unit nat 0 (fun L => L) ly_ndm0r (fun _ => []) (fun _ => [])
  (fun _ _ a => (ar_val nat a, false)) pair_calls (fun _ _ _ _ c => (ar_val nat c, false))
  (fun _ _ _ _ _ => Some zeros) (fun _ _ _ => (None, None)).
Definition pair_new : St K Lay unit nat :=
  mkSt K Lay unit nat ex_L true tt (mkOpts true 0 false SmNone) (app_new K nat 0).
Definition shape_of (s : St K Lay unit nat) : option (nat * nat) :=
  option_map (fun d => (d_rows K d, d_cols K d)) (a_dense K nat (s_app K Lay unit nat s)).
Definition pair_E (b : nat) : Q := match b with 2 => 5 | _ => 0 end.

(** remove_coherences after a solve leaves states_changed False, so the arrays keep their size.  The rows and columns
    beyond the new size stay zero: the matrix of the linear system maps the last unit vector to zero, and
    np.linalg.solve cannot succeed.  A new approach object has arrays of the right size. *)
Theorem C34_coherences_refuted : exists L1,
  remove_coherences (qfar pair_E 3) ex_L = Some L1 /\
  let s := pair_run [Solve _ _ false; Coherences _ _ L1] pair_new in
  shape_of (fst (pair_solve false s)) = Some (6, 6) /\ ly_ndm0r (s_sel K Lay unit nat s) = 4 /\
  shape_of (fst (pair_solve false (with_app K Lay unit nat (app_new K nat 0) s))) = Some (4, 4) /\
  option_map (fun d => map (fun i => replace_row K (d_kern K d) 0 (d_norm K d) (i, 5%Z)) [0; 1; 2; 3; 4; 5]%Z)
    (a_dense K nat (s_app K Lay unit nat (fst (pair_solve false s)))) = Some [0; 0; 0; 0; 0; 0]%Z.
Proof.
  destruct (remove_coherences (qfar pair_E 3) ex_L) as [L1|] eqn:E1; [|vm_compute in E1; discriminate].
  vm_compute in E1. injection E1 as <-. eexists. split; [reflexivity|]. cbv zeta.
  split; [vm_compute; reflexivity|]. split; [vm_compute; reflexivity|]. split; [vm_compute; reflexivity|].
  vm_compute. reflexivity.
Qed.

(** states_changed belongs to si: a solve with one approach object clears it, and a second approach object built on the
    same builder keeps arrays of the old size. *)
Theorem C34_shared_refuted : exists L1,
  L1 = lay_of (snd (call_set KDM ex_dm ex_si [[0]; [1]; []])) /\
  let s1 := pair_run [Solve _ _ false] pair_new in
  let app1 := s_app K Lay unit nat s1 in
  let s2 := pair_run [Solve _ _ false; Select _ _ L1; Solve _ _ false] (with_app K Lay unit nat (app_new K nat 0) s1) in
  let s3 := fst (pair_solve false (with_app K Lay unit nat app1 s2)) in
  shape_of s2 = Some (2, 2) /\ shape_of s3 = Some (6, 6) /\ ly_ndm0r (s_sel K Lay unit nat s3) = 2.
Proof. eexists. split; [reflexivity|]. vm_compute. auto. Qed.
End Two.
Print Assumptions C34_coherences_refuted.
Print Assumptions C34_shared_refuted.
