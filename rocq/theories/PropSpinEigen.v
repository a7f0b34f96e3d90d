(** C54, second part: with symmetry='spin' and 'ssq' the columns written by construct_eigenstates are eigenvectors of the
    Hamiltonian in every block. *)
From Coq Require Import String ZArith List Arith Lia Bool Reals Lra.
From Verif Require Import Base Bits Indexing IndexingProofs RemoveProofs SsqProofs Qn PropIndexing CRing Fock Operators OperatorsProofs PauliProofs
  PropOperators DMReach Params ParamsProofs PropParams Rates PropRotate SpinFock SpinOps PropSpinOps SpinInvariant SpinBlocks SpinProofs PropSpin PropSpinInvariant
  Multiplets MultipletsExec MultipletsSpin MultipletsProofs PropMultiplets.
Import ListNotations.
Open Scope nat_scope.
Local Notation length := List.length.
Local Notation C := (Cx RRing).
Local Notation key4 := (nat * nat * nat * nat)%type.
Add Ring Ceig : (rth C).

Definition inject (z : Z) : C := rC (IZR z).
Lemma inject_raise : forall h s t, length s = h + h -> length t = h + h -> inject (mel ZRing (spin_raise ZRing h) t s) = mel C (spin_raise C h) t s.
Proof.
  intros h s t Ls Lt. rewrite !spin_raise_ladder. apply (ladder_hom ZRing C inject) with (n := h + h); auto; try (intros; lia); unfold inject.
  - intros x y. cbn [radd ZRing]. rewrite plus_IZR. apply C_eq; [reflexivity|exact (eq_sym (Rplus_0_l 0%R))].
  - intros x y. cbn [rmul ZRing]. rewrite mult_IZR. apply rC_mul.
  - intros x. cbn [ropp ZRing]. rewrite opp_IZR. apply C_eq; [reflexivity|exact (eq_sym Ropp_0)].
Qed.

Section Blocks.
Variables (n : nat) (indexing : string).
Hypothesis Hn : 1 <= n.
Hypothesis Ev : Nat.even n = true.
Hypothesis Hix : (indexing = "sz" \/ indexing = "ssq")%string.
Local Notation si := (si_init n indexing).
Local Notation h := (Nat.div2 n).
Local Notation st := (st n indexing).
Local Notation in_block := (in_block n indexing).
Variable H : op C.
Hypothesis LIN : linear C H.
Hypothesis COM : forall f s, length s = n -> spin_raise C h (H f) s = H (spin_raise C h f) s.

Lemma electrons_le : forall s, electrons s <= length s.
Proof. induction s as [|[|] s IH]; cbn in *; lia. Qed.
Lemma block_list : forall c z blk, in_block c z blk -> let sts := map (st blk) (seq 0 (length blk)) in
  NoDup sts /\ (forall u, In u sts -> length u = n) /\ (forall u, length u = n -> electrons u = c -> up_minus_down u = z -> In u sts).
Proof.
  intros c z blk B sts. split; [|split].
  - apply map_nodup_in; [|apply seq_NoDup]. intros a b Ha Hb. apply in_seq in Ha, Hb. eapply st_inj; eauto; lia.
  - intros u Hu. apply in_map_iff in Hu. destruct Hu as (i & <- & Hi). apply in_seq in Hi. apply (st_ok _ _ Hn _ _ _ i B). lia.
  - intros u Lu Eu Uu. assert (Hc : c <= n) by (rewrite <- Eu, <- Lu; apply electrons_le).
    destruct (block_state_ex n indexing Hn c z u Hc Lu Eu Uu blk B) as (k & Hk & Gk).
    apply In_nth_error in Hk. destruct Hk as (i & Ei). destruct (st_state n indexing blk i u) as (-> & Hi); [exists k; auto|].
    apply in_map. apply in_seq. lia.
Qed.
Theorem block_commutes : forall c z blk blk' d' d sp, c <= n -> In z (szrange c n) -> In (z + 2)%Z (szrange c n) ->
  in_block c z blk -> in_block c (z + 2) blk' -> operator_sp c z si = Some (SMat d' d sp) ->
  d' = length blk' /\ d = length blk /\ forall p q, p < length blk' -> q < length blk ->
    rsum (fun i => rmul (mel C H (st blk' p) (st blk' i)) (inject (sp i q))) (seq 0 (length blk')) =
    rsum (fun i => rmul (inject (sp p i)) (mel C H (st blk i) (st blk q))) (seq 0 (length blk)).
Proof.
  intros c z blk blk' d' d sp Hc Hz Hz' B B' ES. pose proof (two_h n Ev) as TH.
  destruct (raise_matrix n indexing Hn Ev c z blk blk' Hc Hz Hz' B B') as (m & Em & Vm).
  rewrite ES in Em. injection Em as -> -> ->. split; auto. split; auto. intros p q Hp Hq.
  destruct (block_list c z blk B) as (ND & LEN & ALL). destruct (block_list c _ blk' B') as (ND' & LEN' & ALL').
  destruct (st_ok n indexing Hn _ _ _ p B' Hp) as (Bp & Lp & Cp & Up). destruct (st_ok n indexing Hn _ _ _ q B Hq) as (Bq & Lq & Cq & Uq).
  assert (IV : forall i j, i < length blk' -> j < length blk -> inject (m i j) = mel C (spin_raise C h) (st blk' i) (st blk j)).
  { intros i j Hi Hj. destruct (st_ok n indexing Hn _ _ _ i B' Hi) as (Bi & Li & _). destruct (st_ok n indexing Hn _ _ _ j B Hj) as (Bj & Lj & _).
    rewrite (Vm i j _ _ Bi Bj). apply inject_raise; lia. }
  transitivity (mel C (ocomp C H (spin_raise C h)) (st blk' p) (st blk q)).
  - rewrite spin_raise_ladder. symmetry. destruct LIN as (L1 & L2).
    rewrite (ladder_complete C h (fun j => h + j) (fun j => j) n) with (sts := map (st blk') (seq 0 (length blk'))); auto; try (intros; lia).
    + rewrite rsum_map. apply rsum_ext. intros i Hi. apply in_seq in Hi. rewrite IV by lia. now rewrite spin_raise_ladder.
    + intros j Hj F.
      destruct (flip_raise (st blk q) j ltac:(rewrite Lq; auto) ltac:(rewrite Lq; auto) ltac:(rewrite Lq; auto)) as (A1 & A2 & A3). rewrite Lq in A1, A2, A3.
      apply ALL'; congruence.
  - unfold mel at 1. unfold ocomp. rewrite <- COM by auto. rewrite spin_raise_ladder.
    rewrite (ladder_row C h (fun j => h + j) (fun j => j) n) with (sts := map (st blk) (seq 0 (length blk))); auto; try (intros; lia).
    + rewrite rsum_map. apply rsum_ext. intros i Hi. apply in_seq in Hi. rewrite IV by lia. now rewrite spin_raise_ladder.
    + intros u j Lu Hj F E.
      destruct (flip_raise u j ltac:(rewrite Lu; auto) ltac:(rewrite Lu; auto) ltac:(rewrite Lu; auto)) as (A1 & A2 & A3). rewrite Lu in A1, A2, A3.
      rewrite <- E in A1, A2, A3. apply ALL; try congruence. lia.
Qed.
End Blocks.

Lemma full_op_linear : forall K hh hc ml (q : QD K), linear (Cx K) (full_op K hh hc ml q).
Proof.
  intros K hh hc ml q.
  assert (CR : forall i, linear (Cx K) (cre (Cx K) i)) by (intros i; apply (linear_letter (Cx K) (true, i))).
  assert (AN : forall i, linear (Cx K) (ann (Cx K) i)) by (intros i; apply (linear_letter (Cx K) (false, i))).
  apply linear_plus; apply linear_sum.
  - intros [[[[m n] k] l] U] _. apply linear_plus; [|destruct (wants_conj hc ml m n k l); [|apply linear_zero]]; apply linear_scale; repeat apply linear_compose; auto.
  - intros [[i j] v] _. apply linear_plus; [|destruct (hh && negb (Nat.eqb i j))%bool; [|apply linear_zero]]; apply linear_scale, linear_compose; auto.
Qed.

Section History.
Local Notation SSQ := "ssq"%string.
Variable isz : C -> bool.
Hypothesis isz_spec : forall x, isz x = true <-> x = r0.
Variables (nss : nat) (ham_ssq_q : bool).
Hypothesis Hnss : 1 <= nss.
Local Notation n := (nss + nss).
Local Notation init := (qd_init RRing isz true true true ham_ssq_q true nss).
Local Notation run := (qd_run RRing isz true true true ham_ssq_q true nss).
Definition no_remove (o : qop RRing) : Prop := match o with QRemove _ _ => False | _ => True end.
Lemma run_si : forall os q0 q, Forall no_remove os -> run q0 os = Some q -> q_si RRing q = q_si RRing q0.
Proof.
  induction os as [|o os IH]; intros q0 q HO E; cbn in E; [now injection E as <-|]. inversion HO as [|x l Ho HO']; subst.
  destruct (qd_step _ _ _ _ _ _ _ _ q0 o) as [q1|] eqn:E1; [|discriminate]. rewrite (IH q1 q HO' E).
  destruct o as [hs cl|hs cl|lst]; [| |destruct Ho]; cbn [qd_step] in E1.
  - unfold qd_add in E1. destruct (ham_add _ _ _ _ _ _ _ _ _) as [h|]; [|discriminate]. now injection E1 as <-.
  - unfold qd_change in E1. destruct (dchange RRing isz eq2 true (q_hs RRing q0) _) as [hs1 dh]. destruct (dchange RRing isz eq4 true (q_cl RRing q0) _) as [cl1 dc].
    destruct (ham_add _ _ _ _ _ _ _ _ _) as [h|]; [|discriminate]. now injection E1 as <-.
Qed.
Lemma n_even : Nat.even n = true.
Proof. apply Nat.even_spec. exists nss. lia. Qed.
Lemma n_half : Nat.div2 n = nss.
Proof. replace n with (2 * nss) by lia. apply Nat.div2_double. Qed.
Lemma spin_eq : forall a b, Nat.ltb a nss = Nat.ltb b nss -> spin_of n a = spin_of n b.
Proof. intros a b E. unfold spin_of. rewrite n_half. now rewrite E. Qed.
Lemma hs_keys : forall az x, wf_input RRing x -> orbitals RRing (hs_orb nss) (named_hs RRing isz true az x) ->
  forall k, In k (map fst (make_hsingle_dict RRing isz true true nss az x)) -> hs_key_ok n SSQ k.
Proof.
  intros az x W O [i j] Hk. destruct (hs_su2 RRing isz nss true False az x W O ltac:(intros [])) as (N1 & N2 & _ & N4 & _).
  pose proof (N2 _ Hk) as (R1 & R2). unfold lev in R1, R2. cbn [fst snd] in R1, R2. split; [cbn [fst snd]; lia|]. intros _. cbn [fst snd]. apply spin_eq.
  destruct (Bool.bool_dec (Nat.ltb i nss) (Nat.ltb j nss)) as [|N]; auto. exfalso. apply N4 in N. apply dget_none in N. contradiction.
Qed.
Lemma cl_keys : forall x, cl_input_ok RRing nss true x -> keys_ok true true (map fst (rows_of RRing x)) ->
  forall q, In q (map fst (make_coulomb_dict RRing isz true true true nss x)) -> cl_key_ok n SSQ q.
Proof.
  intros x CO (K1 & K2) [[[a b] c] e] Hq.
  destruct (cl_su2 RRing isz nss true true (fun q => In q (map fst (rows_of RRing x))) False ltac:(auto) K1 x CO ltac:(auto) ltac:(intros [])) as (N1 & N2 & _ & _ & _ & N6 & _).
  pose proof (N2 _ Hq) as (R1 & R2 & R3 & R4). unfold lev in *. split; [lia|]. intros _.
  destruct (spins_ok nss (a, b, c, e)) eqn:E; [|apply N6 in E; apply dget_none in E; contradiction].
  unfold spins_ok, ups in E. unfold spin_of. rewrite n_half.
  destruct (Nat.ltb a nss), (Nat.ltb b nss), (Nat.ltb c nss), (Nat.ltb e nss); try discriminate E; reflexivity.
Qed.
Lemma keys_sub : forall ks ks', keys_ok true true ks -> (forall q, In q ks' -> In q ks) -> keys_ok true true ks'.
Proof. intros ks ks' (K1 & K2) S. split; [intros E q H N H'; apply (K1 E q); auto|intros E q H; apply (K2 E q); auto]. Qed.

Lemma low_block : forall c, c <= n -> In (c, Some (szlow c)) (ham_blocks ham_ssq_q (si_init n SSQ)).
Proof.
  intros c Hc. unfold ham_blocks. rewrite init_ix, init_n, init_nc.
  assert (EX : ix_of SSQ n = IxSsq) by (unfold ix_of; cbn -[Nat.even]; now rewrite n_even). rewrite EX.
  apply in_flat_map. exists c. split; [apply in_seq; lia|]. apply in_map_iff. exists (szlow c). split; auto. destruct ham_ssq_q; [|now left]. apply szlow_in; auto; [lia|apply n_even].
Qed.
Theorem C54_eigenstates : forall hs cl os q0 q c eigh_real eigh_cplx,
  wf_input RRing hs -> orbitals RRing (hs_orb nss) (named_hs RRing isz true false hs) -> cl_input_ok RRing nss true cl ->
  Forall (spin_op_ok RRing isz nss true true) os -> keys_ok true true (history_keys RRing cl os) -> Forall no_remove os ->
  hs_real RRing isz true false hs -> cl_real RRing cl -> Forall (op_real RRing isz true) os ->
  init (si_init n SSQ) hs cl = Some q0 -> run q0 os = Some q -> c <= n ->
  let ham := fun p r => q_ham RRing q (c, Some (szlow c)) (p, r) in
  eigh_right c (q_si RRing q) ham eigh_real eigh_cplx ->
  exists s, eigenstates_ssq_all eigh_real eigh_cplx c ham (q_si RRing q) = Some s /\
  forall sz ssq, In sz (szrange c n) -> In ssq (ssqrange c sz n) ->
  exists states x, get_lst (q_si RRing q) c (Some sz) None = Some states /\ cell_of s c n sz ssq = Some x /\
    forall bs, (forall p, p < length states -> block_state (q_si RRing q) states p (bs p)) ->
    forall p j, p < length states -> j < cl_cols x ->
      rsum (fun r => rmul (mel C (full_op RRing true true true q) (bs p) (bs r)) (cl_vec x r j)) (seq 0 (length states)) = rmul (rC (cl_vals x j)) (cl_vec x p j).
Proof.
  intros hs cl os q0 q c er ec W O CO HO KO NR R1 R2 R3 E0 E Hc ham EH. set (op := full_op RRing true true true q) in *.
  assert (Hn : 1 <= n) by lia. pose proof n_even as Ev. pose proof n_half as Hh.
  assert (SI0 : spin_indexing n SSQ (si_init n SSQ)) by (repeat split; auto).
  assert (SQ : q_si RRing q = si_init n SSQ).
  { rewrite (run_si os q0 q NR E). unfold qd_init, init_hamiltonian in E0. destruct (ham_add _ _ _ _ _ _ _ _ _) as [h|]; [|discriminate]. now injection E0 as <-. }
  destruct (C18_operator RRing isz true true true ham_ssq_q true nss n SSQ Hn hs cl os W (proj1 CO)) as (q0' & q' & E0' & E' & HQ).
  { apply Forall_forall. intros o Ho. rewrite Forall_forall in HO. specialize (HO o Ho). destruct o as [h1 c1|h1 c1|lst]; cbn in *; auto; destruct HO as (A1 & A2); split.
    1,3: destruct h1; cbn in *; tauto. all: destruct c1; cbn in *; auto; apply A2. }
  { intros k. now apply hs_keys. }
  { intros k. apply cl_keys; auto. apply (keys_sub _ _ KO). intros k' H. apply in_app_iff. now left. }
  { apply Forall_forall. intros o Ho. rewrite Forall_forall in HO, NR. pose proof (HO o Ho) as A. pose proof (NR o Ho) as B.
    assert (KS : forall k, In k (op_keys RRing o) -> In k (history_keys RRing cl os)) by (intros k Hk; apply in_app_iff; right; apply in_flat_map; eauto).
    assert (KC : forall c1, cl_arg_ok RRing nss true c1 -> (forall k, In k (arg_keys RRing c1) -> In k (history_keys RRing cl os)) ->
      forall k, In k (map fst (cl_arg RRing isz true true true nss [] c1)) -> cl_key_ok n SSQ k).
    { intros [|x|] A2 KS' k; cbn [cl_arg]; [intros []|apply cl_keys; auto; now apply (keys_sub _ _ KO)|destruct A2]. }
    assert (KH : forall az h1, hs_arg_ok RRing isz nss true az h1 -> forall k, In k (map fst (hs_arg RRing isz true true nss [] az h1)) -> hs_key_ok n SSQ k).
    { intros az [|x|] A2 k; cbn [hs_arg]; [intros []|destruct A2; now apply hs_keys|destruct A2]. }
    destruct o as [h1 c1|h1 c1|lst]; [| |destruct B]; destruct A as (A1 & A2); (split; [apply KH; exact A1|apply KC; [exact A2|exact KS]]). }
  assert (q0' = q0) by congruence. subst q0'. assert (q' = q) by congruence. subst q'.
  pose proof (C54_commutes RRing isz isz_spec nss true true true ham_ssq_q ltac:(auto) (si_init n SSQ) hs cl os q0 q W O CO HO KO E0 E) as CM.
  pose proof (C54_hermitian RRing isz isz_spec nss true true true ham_ssq_q ltac:(auto) (si_init n SSQ) hs cl os q0 q W O CO HO KO eq_refl eq_refl R1 R2 R3 E0 E) as HE.
  fold op in CM, HE, HQ. rewrite SQ in *.
  set (blk := fun sz => match get_lst (si_init n SSQ) c (Some sz) None with Some l => l | None => [] end).
  assert (BK : forall sz, In sz (szrange c n) -> in_block n SSQ c sz (blk sz)).
  { intros sz Hz. destruct (block_ex n SSQ Hn Ev ltac:(auto) c sz Hc Hz) as (l & B). unfold blk. pose proof B as (B1 & _). now rewrite B1. }
  set (Hm := fun sz p r => if Z.eqb sz (szlow c) then ham p r else mel C op (st n SSQ (blk sz) p) (st n SSQ (blk sz) r)).
  assert (LI : In (szlow c) (szrange c n)) by (apply szlow_in; auto).
  assert (HV : forall sz p r, In sz (szrange c n) -> p < length (blk sz) -> r < length (blk sz) -> Hm sz p r = mel C op (st n SSQ (blk sz) p) (st n SSQ (blk sz) r)).
  { intros sz p r Hz Hp Hr. unfold Hm. destruct (Z.eqb_spec sz (szlow c)) as [->|]; auto.
    destruct (HQ (c, Some (szlow c))) as (lst & EL & V).
    - apply low_block; auto.
    - cbn [fst snd] in EL. unfold ham. apply V; unfold blk in *; rewrite EL in *.
      + apply (st_ok n SSQ Hn c (szlow c)); auto. specialize (BK _ LI). now rewrite EL in BK.
      + apply (st_ok n SSQ Hn c (szlow c)); auto. specialize (BK _ LI). now rewrite EL in BK. }
  destruct (C53_hamiltonian n SSQ (si_init n SSQ) c Hm er ec SI0 Hc) as (s & ES & CE).
  - intros sz states Hz EL p r Hp Hr. assert (EB : blk sz = states) by (unfold blk; now rewrite EL). rewrite <- EB in Hp, Hr.
    rewrite !HV by auto. apply HE; [apply (st_ok n SSQ Hn c sz (blk sz) r (BK sz Hz) Hr)|apply (st_ok n SSQ Hn c sz (blk sz) p (BK sz Hz) Hp)].
  - intros sz d' d sp Hz Hz' EP p r Hp Hr.
    destruct (block_commutes n SSQ Hn Ev op (full_op_linear _ _ _ _ _)
      ltac:(intros f s0 Ls0; rewrite Hh; apply CM; auto) c sz (blk sz) (blk (sz + 2)%Z) d' d sp Hc Hz Hz' (BK _ Hz) (BK _ Hz') EP) as (-> & -> & Q).
    etransitivity; [|etransitivity; [exact (Q p r Hp Hr)|]]; apply rsum_ext; intros i Hi; apply in_seq in Hi; rewrite HV by (auto; lia); reflexivity.
  - unfold Hm at 1. rewrite Z.eqb_refl. exact EH.
  - exists s. split.
    { unfold Hm in ES. rewrite Z.eqb_refl in ES. exact ES. }
    intros sz ssq Hz Hs. destruct (CE sz ssq Hz Hs) as (states & x & EL & EX & V). exists states, x. split; auto. split; auto.
    intros bs BS p j Hp Hj. rewrite <- (V p j Hp Hj). assert (EB : blk sz = states) by (unfold blk; now rewrite EL).
    apply rsum_ext. intros r Hr. apply in_seq in Hr. rewrite HV by (auto; rewrite EB; lia).
    destruct (st_state n SSQ _ _ _ (BS p Hp)) as (-> & _). destruct (st_state n SSQ _ _ _ (BS r ltac:(lia))) as (-> & _). now rewrite EB.
Qed.
End History.
Print Assumptions C54_eigenstates.

(** two electrons on two orbitals, with pair hopping: the Hamiltonian of C53_case comes from these parameters *)
Section EigenCase.
Ltac cas p := destruct p as [|[|[|[|p]]]]; try lia.
Ltac cplx_tac := apply C_eq; lazy -[Rplus Rmult Ropp Rminus Rinv IZR mc_h]; try lra.
Definition ec_isz (x : C) : bool := if Req_EM_T (re x) 0 then if Req_EM_T (im x) 0 then true else false else false.
Lemma ec_isz_spec : forall x, ec_isz x = true <-> x = r0.
Proof.
  intros x. unfold ec_isz. destruct (Req_EM_T (re x) 0) as [E|N], (Req_EM_T (im x) 0) as [E'|N']; split; intros H; try discriminate; auto.
  - apply C_eq; auto.
  - subst x. exfalso. now apply N'.
  - subst x. exfalso. now apply N.
  - subst x. exfalso. now apply N.
Qed.
Definition ec_cl : list (key4 * C) :=
  [((0, 0, 0, 0), rC 4); ((1, 1, 1, 1), rC 4); ((0, 1, 1, 0), rC 8); ((0, 1, 0, 1), rC (-1)); ((0, 0, 1, 1), mc_cI (-1))].
Definition ec_init := qd_init RRing ec_isz true true true false true 2 (si_init 4 "ssq"%string) (InDict []) (InDict ec_cl).
Definition ec_dict : list (key4 * C) := ec_cl ++
  [((0, 2, 2, 0), rC 4); ((2, 2, 2, 2), rC 4); ((1, 3, 3, 1), rC 4); ((3, 3, 3, 3), rC 4); ((0, 3, 3, 0), rC 8); ((1, 2, 2, 1), rC 8); ((2, 3, 3, 2), rC 8);
   ((0, 3, 2, 1), rC (-1)); ((2, 3, 2, 3), rC (-1)); ((0, 2, 3, 1), mc_cI (-1)); ((2, 2, 3, 3), mc_cI (-1))].
Lemma ec_hyps : 
  wf_input RRing (InDict ([] : list (nat * nat * C))) /\ orbitals RRing (hs_orb 2) (named_hs RRing ec_isz true false (InDict [])) /\ cl_input_ok RRing 2 true (InDict ec_cl) /\
  keys_ok true true (history_keys RRing (InDict ec_cl) []) /\ hs_real RRing ec_isz true false (InDict []) /\ cl_real RRing (InDict ec_cl).
Proof.
  split; [cbn; repeat constructor|]. split; [intros k v E; discriminate E|]. split; [|split; [|split]].
  - split; [|split].
    + cbn. repeat constructor; cbn; intuition discriminate.
    + intros q Hq. cbn in Hq. repeat (destruct Hq as [<-|Hq]; [cbn; lia|]). destruct Hq.
    + intros _. split.
      * intros q Hq. cbn in Hq. repeat (destruct Hq as [<-|Hq]; [cbn; intuition congruence|]). destruct Hq.
      * intros m n U N Hq. cbn in Hq. repeat (destruct Hq as [E|Hq]; [injection E; intros; subst; try lia; try apply rC_conj|]). destruct Hq.
  - split; intros _ q Hq; cbn in Hq.
    + intros N Hq'. cbn in Hq'. repeat (destruct Hq as [<-|Hq]; [apply N; repeat (destruct Hq' as [X|Hq']; [first [discriminate X|reflexivity]|]); now destruct Hq'|]). destruct Hq.
    + repeat (destruct Hq as [<-|Hq]; [unfold ordered; cbn; try lia|]). destruct Hq.
  - intros i v E. discriminate E.
  - intros q v Hq D. cbn in Hq. repeat (destruct Hq as [E|Hq]; [injection E; intros; subst; try discriminate D; try apply rC_conj|]). destruct Hq.
Qed.
Lemma ec_ham : exists q, ec_init = Some q /\ forall p r, p < 4 -> r < 4 -> q_ham RRing q (2, Some 0%Z) (p, r) = mc_H 0 p r.
Proof.
  destruct ec_hyps as (W & O & CO & KO & _ & _).
  destruct (C18_operator RRing ec_isz true true true false true 2 4 "ssq" ltac:(lia) (InDict []) (InDict ec_cl) [] W (proj1 CO)) as (q0 & q & E0 & E & HQ).
  - constructor.
  - intros k. apply (hs_keys ec_isz 2); auto.
  - intros k. apply (cl_keys ec_isz 2); auto.
  - constructor.
  - injection E as <-. exists q0. split; auto. intros p r Hp Hr.
    assert (SH : q_si RRing q0 = si_init 4 "ssq" /\ q_hs RRing q0 = [] /\ q_cl RRing q0 = make_coulomb_dict RRing ec_isz true true true 2 (InDict ec_cl)).
    { unfold qd_init, init_hamiltonian in E0. destruct (ham_add _ _ _ _ _ _ _ _ _) as [h|]; [|discriminate]. injection E0 as <-. auto. }
    destruct SH as (S1 & S2 & S3). rewrite S1 in HQ. destruct (HQ (2, Some 0%Z)) as (lst & EL & V).
    { vm_compute. auto 10. }
    vm_compute in EL. injection EL as <-.
    rewrite (V p r (st 4 "ssq" [6; 7; 8; 9] p) (st 4 "ssq" [6; 7; 8; 9] r)).
    + unfold full_op. rewrite S2, S3. 
      replace (make_coulomb_dict RRing ec_isz true true true 2 (InDict ec_cl)) with ec_dict by reflexivity.
      clear -Hp Hr. cas p; cas r; cplx_tac.
    + clear -Hp. cas p; (eexists; split; [reflexivity|vm_compute; reflexivity]).
    + clear -Hr. cas r; (eexists; split; [reflexivity|vm_compute; reflexivity]).
Qed.
Lemma ec_right : forall ham, (forall p r, p < 4 -> r < 4 -> ham p r = mc_H 0 p r) -> eigh_right 2 mc_si ham mc_eigR mc_eigC.
Proof.
  intros ham E. destruct mc_right as (A & B). split; [exact A|]. intros L V EL HV hamp. specialize (B L V EL HV). cbv zeta in B.
  replace hamp with (project (ra_rows V) (mc_H (szlow 2)) (ra_at V)); [exact B|].
  assert (D : ra_rows V = 4).
  { destruct mc_slices as (V0 & V2 & E' & E0 & E2). assert (L = [Some V0; Some V2]) by (change (szlow 2) with 0%Z in EL; congruence). subst L.
    destruct HV as [Q|[Q|[]]]; injection Q as <-; subst; reflexivity. }
  unfold hamp. rewrite D. unfold project. apply FunctionalExtensionality.functional_extensionality. intros i. apply FunctionalExtensionality.functional_extensionality. intros j.
  apply rsum_ext. intros p Hp. apply in_seq in Hp. f_equal. apply rsum_ext. intros r Hr. apply in_seq in Hr. rewrite E by lia. reflexivity.
Qed.
Example C54_eigen_case : exists q0 s x, ec_init = Some q0 /\
  eigenstates_ssq_all mc_eigR mc_eigC 2 (fun p r => q_ham RRing q0 (2, Some 0%Z) (p, r)) (si_init 4 "ssq"%string) = Some s /\
  cell_of s 2 4 0 0 = Some x /\ cl_cols x = 3 /\
  forall p j, p < 4 -> j < 3 ->
    rsum (fun r => rmul (mel C (full_op RRing true true true q0) (st 4 "ssq"%string [6; 7; 8; 9] p) (st 4 "ssq"%string [6; 7; 8; 9] r)) (cl_vec x r j)) (seq 0 4) = rmul (rC (cl_vals x j)) (cl_vec x p j).
Proof.
  destruct ec_hyps as (W & O & CO & KO & R1 & R2). destruct ec_ham as (q0 & E0 & HQ).
  assert (SQ : q_si RRing q0 = si_init 4 "ssq"%string).
  { unfold ec_init, qd_init, init_hamiltonian in E0. destruct (ham_add _ _ _ _ _ _ _ _ _) as [h|]; [|discriminate]. now injection E0 as <-. }
  pose proof (ec_right (fun p r => q_ham RRing q0 (2, Some 0%Z) (p, r)) HQ) as ER.
  destruct (C54_eigenstates ec_isz ec_isz_spec 2 false ltac:(lia) (InDict []) (InDict ec_cl) [] q0 q0 2 mc_eigR mc_eigC W O CO) as (s & Es & V); auto; try apply Forall_nil; [lia|rewrite SQ; exact ER|].
  rewrite SQ in Es, V. destruct (V 0%Z 0%Z) as (states & x & EL & Ex & Y); [cbv; auto|cbv; auto|]. vm_compute in EL. injection EL as <-.
  destruct (C53_ssq_cells 4 (si_init 4 "ssq"%string) 2 (fun p r => q_ham RRing q0 (2, Some 0%Z) (p, r)) mc_eigR mc_eigC) as (s' & Es' & CL); auto; [repeat split; auto; lia| |].
  { intros states Hs p r Hp Hr. vm_compute in Hs. injection Hs as <-. cbn in Hp, Hr. rewrite !HQ by auto.
    apply (mc_herm 0%Z [6; 7; 8; 9]); auto. cbv; auto. }
  change (szlow 2) with 0%Z in Es. rewrite Es in Es'. injection Es' as <-.
  destruct (CL 0%Z 0%Z ltac:(cbv; auto) ltac:(cbv; auto)) as (x' & l & Ex' & El & Q). vm_compute in El. injection El as <-.
  change (2 + 2) with 4 in Ex. rewrite Ex in Ex'. injection Ex' as <-. cbn in Q.
  exists q0, s, x. repeat split; auto. intros p j Hp Hj. apply (Y (st 4 "ssq"%string [6; 7; 8; 9])); [|exact Hp|now rewrite <- Q].
  clear. cbn [List.length]. intros p Hp. cas p; (eexists; split; [reflexivity|vm_compute; reflexivity]).
Qed.
End EigenCase.
