(** C17: the matrices of S^+, S^- and S^2 *)
From Coq Require Import String ZArith List Arith Lia Bool.
From Verif Require Import Base Bits Indexing IndexingProofs RemoveProofs SsqProofs Qn PropIndexing CRing Fock Operators OperatorsProofs PauliProofs
  PropOperators Rates PropRotate SpinFock SpinOps.
Import ListNotations.
Open Scope nat_scope.
Local Notation length := List.length.

Add Ring Zspin : (rth ZRing).

(** value of an entry; the Python number 0 stands for the zero matrix *)
Definition sval (a : option spinop) (p q : nat) : Z := match a with Some (SMat _ _ m) => m p q | _ => 0%Z end.
Definition square (a : option spinop) (d : nat) : Prop :=
  match a with Some SZero => True | Some (SMat r c _) => r = d /\ c = d | None => False end.

Lemma spin_commutes_div2 : forall n, Nat.even n = true -> n = Nat.div2 n + Nat.div2 n.
Proof. intros n H. apply Nat.even_spec in H. destruct H as [k ->]. rewrite Nat.div2_double. lia. Qed.

(** ** the loops build the ladder operators *)
Section Build.
Variables (n : nat) (si : SI).
Hypothesis RC : removal_correct n [] si.
Hypothesis En : si_nsingle si = n.
Hypothesis Ev : Nat.even n = true.
Let h := Nat.div2 n.
Variables (from to : nat -> nat).
Hypothesis BND : forall j, j < h -> from j < n /\ to j < n.
Hypothesis DIS : forall j k, j < h -> k < h -> from j <> to k.
Hypothesis INJ : forall j k, j < h -> k < h -> from j = from k -> j = k.
Variables (states target : list nat) (step : nat -> list bool -> nat -> option (list ((nat * nat) * Z))).
Hypothesis LTS : forall k, In k states -> k < si_nmany si.
Hypothesis NDT : NoDup target.
Hypothesis LTT : forall k, In k target -> k < si_nmany si.
(** a flipped state belongs to the target block *)
Hypothesis CL : forall k s j, In k states -> get_state si k = Some s -> j < h -> flippable from to j s = true ->
  exists k', In k' target /\ get_state si k' = Some (flip from to j s).
Hypothesis STEP : forall j1 s j, length s = n -> j < h ->
  step j1 s j = if flippable from to j s
                then flip_write si target j1 (flip from to j s) (2 * flip_sign ZRing from to j s)%Z else Some [].

Lemma spin_matrix_mel : exists m, spin_matrix si states target step = Some (SMat (length target) (length states) m) /\
  forall p q sp sq, block_state si target p sp -> block_state si states q sq -> m p q = mel ZRing (ladder ZRing h from to) sp sq.
Proof.
  pose (us := fun j1 j => match nth_error states j1 with None => [] | Some k =>
     match get_state si k with None => [] | Some s => match step j1 s j with Some u => u | None => [] end end end).
  assert (ST : forall j1 k s j, nth_error states j1 = Some k -> get_state si k = Some s -> j < h ->
     step j1 s j = Some (us j1 j) /\
     (flippable from to j s = true -> exists ind k', us j1 j = [((ind, j1), (2 * flip_sign ZRing from to j s)%Z)] /\
        nth_error target ind = Some k' /\ get_state si k' = Some (flip from to j s)) /\
     (flippable from to j s = false -> us j1 j = [])).
  { intros j1 k s j Ek Es Hj. assert (Hk : k < si_nmany si) by (apply LTS; eapply nth_error_In; eauto).
    pose proof (gs_len _ _ _ RC k s Hk Es) as Ls.
    unfold us. rewrite Ek, Es. rewrite STEP by auto. destruct (flippable from to j s) eqn:Fl.
    - destruct (CL k s j (nth_error_In _ _ Ek) Es Hj Fl) as (k' & Hin & Es').
      unfold flip_write. rewrite (gs_ind _ _ _ RC k' _ (LTT _ Hin) Es').
      destruct (index_of_in _ _ Hin) as (ind & Ei & Hi & Ni). rewrite Ei. split; auto. split; [|congruence].
      intros _. exists ind, k'. split; auto. split; auto. rewrite (nth_error_of_nth _ 0) by auto. congruence.
    - split; auto. split; [congruence|auto]. }
  unfold spin_matrix.
  rewrite (oconcat_some _ _ _ (fun j1 => flat_map (us j1) (seq 0 h))).
  2: { intros j1 Hj. apply in_seq in Hj. destruct (nth_error states j1) as [k|] eqn:Ek.
       2: { apply nth_error_None in Ek. lia. }
       assert (Hk : k < si_nmany si) by (apply LTS; eapply nth_error_In; eauto).
       destruct (gs_ex _ _ _ RC k Hk) as (s & Es & Ls). rewrite Es. rewrite En. fold h.
       apply oconcat_some. intros j Hjj. apply in_seq in Hjj. apply (ST j1 k s j); auto. lia. }
  eexists. split; [reflexivity|]. intros p q sp sq (kp & Ep & Esp) (kq & Eq & Esq). cbv beta.
  assert (Hkp : kp < si_nmany si) by (apply LTT; eapply nth_error_In; eauto).
  assert (Hkq : kq < si_nmany si) by (apply LTS; eapply nth_error_In; eauto).
  pose proof (gs_len _ _ _ RC kp sp Hkp Esp) as Lp. pose proof (gs_len _ _ _ RC kq sq Hkq Esq) as Lq.
  (* every write at (p, q) comes from a flip of sq that gives sp *)
  assert (W : forall u, In u (flat_map (fun j1 => flat_map (us j1) (seq 0 h)) (seq 0 (length states))) -> fst u = (p, q) ->
     exists j, j < h /\ flippable from to j sq = true /\ sp = flip from to j sq /\ snd u = (2 * flip_sign ZRing from to j sq)%Z).
  { intros u Hu Fu. apply in_flat_map in Hu. destruct Hu as (j1 & Hj1 & Hu). apply in_flat_map in Hu.
    destruct Hu as (j & Hj & Hu). apply in_seq in Hj1, Hj.
    destruct (nth_error states j1) as [k|] eqn:Ek.
    2: { apply nth_error_None in Ek. lia. }
    assert (Hk : k < si_nmany si) by (apply LTS; eapply nth_error_In; eauto).
    destruct (gs_ex _ _ _ RC k Hk) as (s & Es & Ls).
    destruct (ST j1 k s j Ek Es ltac:(lia)) as (_ & A & B). destruct (flippable from to j s) eqn:Fl.
    - destruct (A eq_refl) as (ind & k' & E & Ei & Es'). rewrite E in Hu. destruct Hu as [<-|[]]. cbn [fst snd] in *.
      injection Fu as -> ->. assert (k = kq) by congruence. subst k. assert (s = sq) by congruence. subst s.
      exists j. split; [lia|]. split; auto. split; auto. congruence.
    - rewrite (B eq_refl) in Hu. destruct Hu. }
  destruct (find (fun j => flippable from to j sq && if list_eq_dec bool_dec sp (flip from to j sq) then true else false) (seq 0 h)) as [j|] eqn:F.
  - apply find_some in F. destruct F as [Hj F]. apply in_seq in Hj. apply andb_prop in F. destruct F as [Fl F].
    destruct (list_eq_dec bool_dec sp (flip from to j sq)) as [E|]; [|discriminate].
    rewrite E. rewrite (mel_ladder_flip ZRing h from to n) by (auto; lia). apply run_writes_val.
    + intros u Hu Fu. destruct (W u Hu Fu) as (j' & Hj' & Fl' & E' & V).
      assert (j = j') by (eapply (flip_inj h from to n BND DIS INJ j j' sq); auto; [lia|congruence]). subst j'. exact V.
    + right. destruct (ST q kq sq j Eq Esq ltac:(lia)) as (_ & A & _). destruct (A Fl) as (ind & k' & EU & Ei & Es').
      exists ((ind, q), (2 * flip_sign ZRing from to j sq)%Z). split.
      * apply in_flat_map. exists q. split.
        { apply in_seq. split; [lia|]. apply nth_error_Some. congruence. }
        apply in_flat_map. exists j. split; [apply in_seq; lia|]. rewrite EU. now left.
      * cbn [fst]. assert (k' = kp).
        { apply (gs_inj _ _ _ RC k' kp sp); auto; [|congruence]. apply LTT. eapply nth_error_In; eauto. }
        subst k'. f_equal.
        apply (proj1 (NoDup_nth_error target) NDT); [apply nth_error_Some; congruence|congruence].
  - assert (NF : forall j, j < h -> flippable from to j sq = true -> sp <> flip from to j sq).
    { intros j Hj Fl E. pose proof (find_none _ _ F j ltac:(apply in_seq; lia)) as N. cbv beta in N. rewrite Fl in N.
      destruct (list_eq_dec bool_dec sp (flip from to j sq)); [discriminate|contradiction]. }
    pose proof (mel_ladder_zero ZRing h from to n BND DIS sq sp Lq Lp NF) as Z0. rewrite Z0.
    apply run_writes_val; [|now left]. intros u Hu Fu. destruct (W u Hu Fu) as (j & Hj & Fl & E & _). exfalso.
    apply (NF j Hj Fl E).
Qed.
End Build.

(** ** the blocks *)
Lemma flip_lower : forall s j, Nat.even (length s) = true -> j < Nat.div2 (length s) ->
  flippable (fun j => j) (fun j => Nat.div2 (length s) + j) j s = true ->
  let t := flip (fun j => j) (fun j => Nat.div2 (length s) + j) j s in
  length t = length s /\ electrons t = electrons s /\ up_minus_down t = (up_minus_down s - 2)%Z.
Proof.
  intros s j Ev Hj F t. pose proof (spin_commutes_div2 _ Ev) as D.
  unfold flippable in F. apply andb_prop in F. destruct F as [F1 F2]. apply negb_true_iff in F2.
  assert (O : occ_at (Nat.div2 (length s) + j) (put j false s) = false) by (rewrite occ_put_other by lia; auto).
  unfold t, flip. split; [now rewrite !put_length|]. split.
  - rewrite <- !ones_electrons. rewrite ones_put_true by (rewrite ?put_length; auto; lia).
    apply ones_put_false; auto. lia.
  - rewrite umd_put_true by (rewrite ?put_length; auto; lia). rewrite umd_put_false by (auto; lia). rewrite put_length.
    unfold spin_of. rewrite (proj2 (Nat.ltb_lt j _)) by lia. rewrite (proj2 (Nat.ltb_ge _ _)) by lia. lia.
Qed.
Lemma flip_raise : forall s j, Nat.even (length s) = true -> j < Nat.div2 (length s) ->
  flippable (fun j => Nat.div2 (length s) + j) (fun j => j) j s = true ->
  let t := flip (fun j => Nat.div2 (length s) + j) (fun j => j) j s in
  length t = length s /\ electrons t = electrons s /\ up_minus_down t = (up_minus_down s + 2)%Z.
Proof.
  intros s j Ev Hj F t. pose proof (spin_commutes_div2 _ Ev) as D.
  unfold flippable in F. apply andb_prop in F. destruct F as [F1 F2]. apply negb_true_iff in F2.
  assert (O : occ_at j (put (Nat.div2 (length s) + j) false s) = false) by (rewrite occ_put_other by lia; auto).
  unfold t, flip. split; [now rewrite !put_length|]. split.
  - rewrite <- !ones_electrons. rewrite ones_put_true by (rewrite ?put_length; auto; lia).
    apply ones_put_false; auto. lia.
  - rewrite umd_put_true by (rewrite ?put_length; auto; lia). rewrite umd_put_false by (auto; lia). rewrite put_length.
    unfold spin_of. rewrite (proj2 (Nat.ltb_lt j _)) by lia. rewrite (proj2 (Nat.ltb_ge _ _)) by lia. lia.
Qed.

Section Blocks.
Variables (n : nat) (indexing : string).
Hypothesis Hn : 1 <= n.
Hypothesis Ev : Nat.even n = true.
Hypothesis Hix : (indexing = "sz" \/ indexing = "ssq")%string.
Let si := si_init n indexing.
Let h := Nat.div2 n.

Lemma si_rc : removal_correct n [] si.
Proof.
  apply (reachable_correct n indexing []). repeat split; auto.
  intros k [].
Qed.
Lemma si_n : si_nsingle si = n. Proof. apply init_n. Qed.
Lemma two_h : n = h + h. Proof. now apply spin_commutes_div2. Qed.

(** the states of a block, in its order *)
Definition in_block (c : nat) (z : Z) (blk : list nat) : Prop :=
  get_lst si c (Some z) None = Some blk /\ NoDup blk /\ (forall k, In k blk -> k < si_nmany si) /\
  forall k, In k blk <-> exists s, get_state si k = Some s /\ electrons s = c /\ up_minus_down s = z.

Lemma block_ex : forall c z, c <= n -> In z (szrange c n) -> exists blk, in_block c z blk.
Proof.
  intros c z Hc Hz. destruct (C03_sz_blocks n indexing Hn Ev Hix) as (A & _).
  destruct (A c z Hc Hz) as (a & len & E & M). exists (seq a len). split; auto. split; [apply seq_NoDup|]. split.
  - intros k Hk. apply M in Hk. destruct Hk as (s & Es & _). fold si in Es. unfold get_state in Es.
    pose proof (si_init_ok n indexing) as OK. fold si in OK. rewrite (ok_nmany _ _ OK).
    apply nth_error_Some. destruct (nth_error (si_i si) k); cbn in Es; congruence.
  - exact M.
Qed.
Lemma block_state_ex : forall c z s, c <= n -> length s = n -> electrons s = c -> up_minus_down s = z ->
  forall blk, in_block c z blk -> exists k, In k blk /\ get_state si k = Some s.
Proof.
  intros c z s Hc Ls Es Uz blk (_ & _ & _ & M). destruct (gi_cases _ _ _ si_rc s Ls) as [(k & G & Hk & Gs)|(G & N)].
  - exists k. split; auto. apply M. exists s. auto.
  - exfalso. destruct si_rc as (_ & R & _). destruct (R s Ls) as (k & G' & _); [intros []|]. congruence.
Qed.

Lemma range_down : forall c z, c <= n -> In z (szrange c n) -> ((z - 2 <? - szmax c n)%Z = false <-> In (z - 2)%Z (szrange c n)).
Proof.
  intros c z Hc Hz. rewrite szrange_in in * by auto. destruct Hz as (k & Hk & ->). rewrite smax_szmax by auto. rewrite Z.ltb_ge. split.
  - intros H. exists (k - 1)%nat. lia.
  - intros (k' & Hk' & E). lia.
Qed.
Lemma range_up : forall c z, c <= n -> In z (szrange c n) -> ((z + 2 >? szmax c n)%Z = false <-> In (z + 2)%Z (szrange c n)).
Proof.
  intros c z Hc Hz. rewrite szrange_in in * by auto. destruct Hz as (k & Hk & ->). rewrite smax_szmax by auto.
  rewrite Z.gtb_ltb, Z.ltb_ge. split.
  - intros H. exists (k + 1)%nat. lia.
  - intros (k' & Hk' & E). lia.
Qed.

Lemma fs_Z : forall a b, (sgn ZRing (a + b) = sgn ZRing a * sgn ZRing b)%Z.
Proof. intros. apply (sgn_add ZRing). Qed.

Theorem lower_matrix : forall c z blk blk', c <= n -> In z (szrange c n) -> In (z - 2)%Z (szrange c n) ->
  in_block c z blk -> in_block c (z - 2) blk' ->
  exists m, operator_sm c z si = Some (SMat (length blk') (length blk) m) /\
    forall p q sp sq, block_state si blk' p sp -> block_state si blk q sq -> m p q = mel ZRing (spin_lower ZRing h) sp sq.
Proof.
  intros c z blk blk' Hc Hz Hz' B B'. unfold operator_sm. rewrite si_n.
  rewrite (proj2 (range_down c z Hc Hz) Hz'). destruct B as (E & ND & LT & M), B' as (E' & ND' & LT' & M').
  rewrite E, E'. rewrite spin_lower_ladder. pose proof two_h as TH. unfold h in *.
  assert (LEN : forall s : list bool, length s = n -> Nat.even (length s) = true) by (intros s ->; auto).
  apply (spin_matrix_mel n si si_rc si_n (fun j => j) (fun j => Nat.div2 n + j)); auto; try (intros; lia).
  - intros k s j Hk Es Hj F. pose proof (gs_len _ _ _ si_rc k s (LT _ Hk) Es) as Ls.
    assert (Fa : flippable (fun j => j) (fun j => Nat.div2 (length s) + j) j s = true) by (rewrite Ls; auto).
    destruct (flip_lower s j (LEN s Ls) ltac:(rewrite Ls; auto) Fa) as (A1 & A2 & A3). rewrite Ls in A1, A2, A3.
    apply M in Hk. destruct Hk as (s' & Es' & C1 & C2). assert (s' = s) by congruence. subst s'.
    eapply block_state_ex; [exact Hc| | | |].
    + exact A1. + congruence. + rewrite A3, C2. reflexivity.
    + split; auto.
  - intros j1 s j Ls Hj. unfold sm_step. rewrite si_n. rewrite !nth_error_occ by lia. unfold flippable.
    destruct (occ_at j s) eqn:E1; cbn [andb]; auto. destruct (occ_at (Nat.div2 n + j) s) eqn:E2; cbn [negb]; auto.
    unfold flip, put. f_equal. unfold flip_sign. rewrite (jw_put_flip' ZRing j (Nat.div2 n + j) false s) by (auto; lia).
    unfold jw. rewrite !ones_charge. rewrite !fs_Z. cbn [sgn]. change (sgn ZRing 1) with (-1)%Z. cbn [rmul ropp ZRing]. lia.
Qed.
Theorem raise_matrix : forall c z blk blk', c <= n -> In z (szrange c n) -> In (z + 2)%Z (szrange c n) ->
  in_block c z blk -> in_block c (z + 2) blk' ->
  exists m, operator_sp c z si = Some (SMat (length blk') (length blk) m) /\
    forall p q sp sq, block_state si blk' p sp -> block_state si blk q sq -> m p q = mel ZRing (spin_raise ZRing h) sp sq.
Proof.
  intros c z blk blk' Hc Hz Hz' B B'. unfold operator_sp. rewrite si_n.
  rewrite (proj2 (range_up c z Hc Hz) Hz'). destruct B as (E & ND & LT & M), B' as (E' & ND' & LT' & M').
  rewrite E, E'. rewrite spin_raise_ladder. pose proof two_h as TH. unfold h in *.
  assert (LEN : forall s : list bool, length s = n -> Nat.even (length s) = true) by (intros s ->; auto).
  apply (spin_matrix_mel n si si_rc si_n (fun j => Nat.div2 n + j) (fun j => j)); auto; try (intros; lia).
  - intros k s j Hk Es Hj F. pose proof (gs_len _ _ _ si_rc k s (LT _ Hk) Es) as Ls.
    assert (Fa : flippable (fun j => Nat.div2 (length s) + j) (fun j => j) j s = true) by (rewrite Ls; auto).
    destruct (flip_raise s j (LEN s Ls) ltac:(rewrite Ls; auto) Fa) as (A1 & A2 & A3). rewrite Ls in A1, A2, A3.
    apply M in Hk. destruct Hk as (s' & Es' & C1 & C2). assert (s' = s) by congruence. subst s'.
    eapply block_state_ex; [exact Hc| | | |].
    + exact A1. + congruence. + rewrite A3, C2. reflexivity.
    + split; auto.
  - intros j1 s j Ls Hj. unfold sp_step. rewrite si_n. rewrite !nth_error_occ by lia. unfold flippable.
    destruct (occ_at j s) eqn:E1; cbn [andb]; auto.
    { rewrite andb_false_r. reflexivity. }
    destruct (occ_at (Nat.div2 n + j) s) eqn:E2; cbn [negb andb]; auto.
    unfold flip. rewrite put_comm by lia. unfold put. f_equal. unfold flip_sign. rewrite (jw_put_ge ZRing (Nat.div2 n + j) j false s) by lia.
    unfold jw. rewrite !ones_charge. rewrite !fs_Z. cbn [rmul ZRing]. lia.
Qed.

(** the states of a block in order *)
Definition st (blk : list nat) (p : nat) : list bool :=
  match nth_error blk p with Some k => match get_state si k with Some s => s | None => [] end | None => [] end.
Lemma st_ok : forall c z blk p, in_block c z blk -> p < length blk ->
  block_state si blk p (st blk p) /\ length (st blk p) = n /\ electrons (st blk p) = c /\ up_minus_down (st blk p) = z.
Proof.
  intros c z blk p (E & ND & LT & M) Hp. unfold st. destruct (nth_error blk p) as [k|] eqn:Ek.
  2: { apply nth_error_None in Ek. lia. }
  pose proof (nth_error_In _ _ Ek) as Hin. apply M in Hin. destruct Hin as (s & Es & A & B). rewrite Es.
  split; [exists k; auto|]. split; auto. apply (gs_len _ _ _ si_rc k s); auto. apply LT. eapply nth_error_In; eauto.
Qed.
Lemma st_state : forall blk p s, block_state si blk p s -> s = st blk p /\ p < length blk.
Proof.
  intros blk p s (k & Ek & Es). unfold st. rewrite Ek, Es. split; auto. apply nth_error_Some. congruence.
Qed.
Lemma st_inj : forall c z blk p q, in_block c z blk -> p < length blk -> q < length blk -> st blk p = st blk q -> p = q.
Proof.
  intros c z blk p q B Hp Hq E. destruct (st_ok _ _ _ _ B Hp) as ((k & Ek & Es) & _). destruct (st_ok _ _ _ _ B Hq) as ((k' & Ek' & Es') & _).
  destruct B as (_ & ND & LT & _).
  assert (k = k'). { apply (gs_inj _ _ _ si_rc k k' (st blk p)); [apply LT; eapply nth_error_In; eauto|apply LT; eapply nth_error_In; eauto|auto|congruence]. }
  subst k'. apply (proj1 (NoDup_nth_error blk) ND); auto. congruence.
Qed.

Lemma rsum_states : forall (f : list bool -> Z) (g : nat -> list bool) m,
  @rsum ZRing _ f (map g (seq 0 m)) = @rsum ZRing _ (fun i => f (g i)) (seq 0 m).
Proof. intros. apply (rsum_map ZRing). Qed.

Lemma raise_ext : forall u v w, (forall x, length x = length w -> u x = v x) -> spin_raise ZRing h u w = spin_raise ZRing h v w.
Proof. intros. rewrite spin_raise_ladder. now apply ladder_ext. Qed.
Lemma lower_ext : forall u v w, (forall x, length x = length w -> u x = v x) -> spin_lower ZRing h u w = spin_lower ZRing h v w.
Proof. intros. rewrite spin_lower_ladder. now apply ladder_ext. Qed.

Lemma sp_sm_value : forall c z blk, c <= n -> In z (szrange c n) -> in_block c z blk ->
  square (sp_sm c z si) (length blk) /\
  forall p q, p < length blk -> q < length blk ->
    sval (sp_sm c z si) p q = mel ZRing (ocomp ZRing (spin_raise ZRing h) (spin_lower ZRing h)) (st blk p) (st blk q).
Proof.
  intros c z blk Hc Hz B. pose proof two_h as TH.
  assert (COMP : forall sts p q, p < length blk -> q < length blk -> NoDup sts ->
     (forall u, length u = n -> electrons u = c -> up_minus_down u = (z - 2)%Z -> In u sts) ->
     (forall u, In u sts -> length u = n) ->
     mel ZRing (ocomp ZRing (spin_raise ZRing h) (spin_lower ZRing h)) (st blk p) (st blk q) =
     @rsum ZRing _ (fun u => (mel ZRing (spin_raise ZRing h) (st blk p) u * mel ZRing (spin_lower ZRing h) u (st blk q))%Z) sts).
  { intros sts p q Hp Hq ND IN LEN. destruct (st_ok _ _ _ _ B Hp) as (_ & Lp & _). destruct (st_ok _ _ _ _ B Hq) as (_ & Lq & Cq & Uq).
    rewrite spin_lower_ladder. apply (ladder_complete ZRing h (fun j => j) (fun j => h + j) n); auto; try (intros; lia).
    - apply raise_ext.
    - intros. rewrite spin_raise_ladder. apply ladder_rsum.
    - intros j Hj F. unfold h in *. rewrite <- Lq in F, Hj.
      destruct (flip_lower (st blk q) j ltac:(rewrite Lq; auto) Hj F) as (A1 & A2 & A3). rewrite Lq in A1, A2, A3.
      apply IN; congruence. }
  unfold sp_sm. rewrite si_n. destruct (z - 2 >=? - szmax c n)%Z eqn:G; rewrite Z.geb_leb in G.
  - apply Z.leb_le in G. assert (Hz' : In (z - 2)%Z (szrange c n)) by (apply (range_down c z Hc Hz); apply Z.ltb_ge; lia).
    destruct (block_ex c _ Hc Hz') as (blk' & B').
    destruct (lower_matrix c z blk blk' Hc Hz Hz' B B') as (m & Em & Vm).
    assert (B2 : in_block c (z - 2 + 2) blk) by (replace (z - 2 + 2)%Z with z by lia; auto).
    destruct (raise_matrix c (z - 2) blk' blk Hc Hz' ltac:(replace (z - 2 + 2)%Z with z by lia; auto) B' B2) as (m' & Em' & Vm').
    rewrite Em, Em'. cbn [sdot]. rewrite Nat.eqb_refl. cbn [square sval]. split; [auto|].
    intros p q Hp Hq. rewrite (COMP (map (st blk') (seq 0 (length blk'))) p q Hp Hq).
    + rewrite rsum_states. apply (rsum_ext ZRing). intros i Hi. apply in_seq in Hi.
      destruct (st_ok _ _ _ _ B Hp) as (Sp & _). destruct (st_ok _ _ _ _ B Hq) as (Sq & _).
      destruct (st_ok _ _ _ i B' ltac:(lia)) as (Si & _).
      rewrite (Vm' p i (st blk p) (st blk' i)) by auto. rewrite (Vm i q (st blk' i) (st blk q)) by auto. reflexivity.
    + apply map_nodup_in; [|apply seq_NoDup]. intros a b Ha Hb. apply in_seq in Ha, Hb.
      eapply st_inj; eauto; lia.
    + intros u Lu Eu Uu. destruct (block_state_ex c (z - 2) u Hc Lu Eu Uu blk' B') as (k & Hk & Gk).
      apply In_nth_error in Hk. destruct Hk as (i & Ei). destruct (st_state blk' i u) as (-> & Hi); [exists k; auto|].
      apply in_map. apply in_seq. lia.
    + intros u Hu. apply in_map_iff in Hu. destruct Hu as (i & <- & Hi). apply in_seq in Hi.
      apply (st_ok _ _ _ i B'). lia.
  - cbn [square sval]. split; auto. intros p q Hp Hq. rewrite (COMP [] p q Hp Hq); [reflexivity|constructor| |intros u []].
    intros u Lu Eu Uu. exfalso. apply Z.leb_gt in G.
    assert (Hz' : In (z - 2)%Z (szrange c n)).
    { destruct (C03_sz_blocks n indexing Hn Ev Hix) as (_ & A & _). apply A; auto. exists u. auto. }
    apply (range_down c z Hc Hz) in Hz'. apply Z.ltb_ge in Hz'. lia.
Qed.

Lemma sm_sp_value : forall c z blk, c <= n -> In z (szrange c n) -> in_block c z blk ->
  square (sm_sp c z si) (length blk) /\
  forall p q, p < length blk -> q < length blk ->
    sval (sm_sp c z si) p q = mel ZRing (ocomp ZRing (spin_lower ZRing h) (spin_raise ZRing h)) (st blk p) (st blk q).
Proof.
  intros c z blk Hc Hz B. pose proof two_h as TH.
  assert (COMP : forall sts p q, p < length blk -> q < length blk -> NoDup sts ->
     (forall u, length u = n -> electrons u = c -> up_minus_down u = (z + 2)%Z -> In u sts) ->
     (forall u, In u sts -> length u = n) ->
     mel ZRing (ocomp ZRing (spin_lower ZRing h) (spin_raise ZRing h)) (st blk p) (st blk q) =
     @rsum ZRing _ (fun u => (mel ZRing (spin_lower ZRing h) (st blk p) u * mel ZRing (spin_raise ZRing h) u (st blk q))%Z) sts).
  { intros sts p q Hp Hq ND IN LEN. destruct (st_ok _ _ _ _ B Hp) as (_ & Lp & _). destruct (st_ok _ _ _ _ B Hq) as (_ & Lq & Cq & Uq).
    rewrite spin_raise_ladder. apply (ladder_complete ZRing h (fun j => h + j) (fun j => j) n); auto; try (intros; lia).
    - apply lower_ext.
    - intros. rewrite spin_lower_ladder. apply ladder_rsum.
    - intros j Hj F. unfold h in *. rewrite <- Lq in F, Hj.
      destruct (flip_raise (st blk q) j ltac:(rewrite Lq; auto) Hj F) as (A1 & A2 & A3). rewrite Lq in A1, A2, A3.
      apply IN; congruence. }
  unfold sm_sp. rewrite si_n. destruct (z + 2 <=? szmax c n)%Z eqn:G.
  - apply Z.leb_le in G. assert (Hz' : In (z + 2)%Z (szrange c n)).
    { apply (range_up c z Hc Hz). rewrite Z.gtb_ltb. apply Z.ltb_ge; lia. }
    destruct (block_ex c _ Hc Hz') as (blk' & B').
    destruct (raise_matrix c z blk blk' Hc Hz Hz' B B') as (m & Em & Vm).
    assert (B2 : in_block c (z + 2 - 2) blk) by (replace (z + 2 - 2)%Z with z by lia; auto).
    destruct (lower_matrix c (z + 2) blk' blk Hc Hz' ltac:(replace (z + 2 - 2)%Z with z by lia; auto) B' B2) as (m' & Em' & Vm').
    rewrite Em, Em'. cbn [sdot]. rewrite Nat.eqb_refl. cbn [square sval]. split; [auto|].
    intros p q Hp Hq. rewrite (COMP (map (st blk') (seq 0 (length blk'))) p q Hp Hq).
    + rewrite rsum_states. apply (rsum_ext ZRing). intros i Hi. apply in_seq in Hi.
      destruct (st_ok _ _ _ _ B Hp) as (Sp & _). destruct (st_ok _ _ _ _ B Hq) as (Sq & _).
      destruct (st_ok _ _ _ i B' ltac:(lia)) as (Si & _).
      rewrite (Vm' p i (st blk p) (st blk' i)) by auto. rewrite (Vm i q (st blk' i) (st blk q)) by auto. reflexivity.
    + apply map_nodup_in; [|apply seq_NoDup]. intros a b Ha Hb. apply in_seq in Ha, Hb.
      eapply st_inj; eauto; lia.
    + intros u Lu Eu Uu. destruct (block_state_ex c (z + 2) u Hc Lu Eu Uu blk' B') as (k & Hk & Gk).
      apply In_nth_error in Hk. destruct Hk as (i & Ei). destruct (st_state blk' i u) as (-> & Hi); [exists k; auto|].
      apply in_map. apply in_seq. lia.
    + intros u Hu. apply in_map_iff in Hu. destruct Hu as (i & <- & Hi). apply in_seq in Hi.
      apply (st_ok _ _ _ i B'). lia.
  - cbn [square sval]. split; auto. intros p q Hp Hq. rewrite (COMP [] p q Hp Hq); [reflexivity|constructor| |intros u []].
    intros u Lu Eu Uu. exfalso. apply Z.leb_gt in G.
    assert (Hz' : In (z + 2)%Z (szrange c n)).
    { destruct (C03_sz_blocks n indexing Hn Ev Hix) as (_ & A & _). apply A; auto. exists u. auto. }
    apply (range_up c z Hc Hz) in Hz'. rewrite Z.gtb_ltb in Hz'. apply Z.ltb_ge in Hz'. lia.
Qed.
End Blocks.

(** *** C17 *)
(** [si] is the indexing made by StateIndexing for 'sz' or 'ssq', with an even number of single-particle states. *)
Definition spin_indexing (n : nat) (indexing : string) (si : SI) : Prop :=
  1 <= n /\ Nat.even n = true /\ (indexing = "sz" \/ indexing = "ssq")%string /\ si = si_init n indexing.

(** S^- : between neighbouring sz blocks the code returns the matrix of 2 sum_j d^dagger_(j,down) d_(j,up); at the
    lowest sz it returns the number 0, and S^- maps the states of that block to zero. *)
Theorem C17_lower : forall n indexing si c sz, spin_indexing n indexing si -> c <= n -> In sz (szrange c n) ->
  exists states, get_lst si c (Some sz) None = Some states /\
  ((In (sz - 2)%Z (szrange c n) /\ exists statesm m, get_lst si c (Some (sz - 2)%Z) None = Some statesm /\
      operator_sm c sz si = Some (SMat (length statesm) (length states) m) /\
      forall p q sp sq, block_state si statesm p sp -> block_state si states q sq ->
        m p q = mel ZRing (spin_lower ZRing (Nat.div2 n)) sp sq) \/
   (~ In (sz - 2)%Z (szrange c n) /\ operator_sm c sz si = Some SZero /\
      forall q sq t, block_state si states q sq -> length t = n -> mel ZRing (spin_lower ZRing (Nat.div2 n)) t sq = 0%Z)).
Proof.
  intros n indexing si c sz (Hn & Ev & Hix & ->) Hc Hz.
  destruct (block_ex n indexing Hn Ev Hix c sz Hc Hz) as (blk & B). exists blk. split; [apply B|].
  destruct (in_dec Z.eq_dec (sz - 2)%Z (szrange c n)) as [Hz'|Hz'].
  - left. split; auto. destruct (block_ex n indexing Hn Ev Hix c _ Hc Hz') as (blk' & B').
    destruct (lower_matrix n indexing Hn Ev c sz blk blk' Hc Hz Hz' B B') as (m & E & V). exists blk', m.
    split; [apply B'|]. split; auto.
  - right. split; auto. split.
    + unfold operator_sm. rewrite init_n. destruct (sz - 2 <? - szmax c n)%Z eqn:G; auto.
      exfalso. apply Hz'. now apply range_down.
    + intros q sq t (k & Ek & Es) Lt. pose proof (two_h n Ev) as TH. rewrite spin_lower_ladder.
      assert (Hk : k < si_nmany (si_init n indexing)) by (apply B; eapply nth_error_In; eauto).
      pose proof (gs_len _ _ _ (si_rc n indexing Hn) k sq Hk Es) as Lq.
      destruct B as (_ & _ & _ & M). destruct (proj1 (M k) (nth_error_In _ _ Ek)) as (s' & Es' & A1 & A2).
      assert (s' = sq) by congruence. subst s'.
      apply (mel_ladder_zero ZRing (Nat.div2 n) _ _ n); auto; try (intros; lia).
      intros j Hj F. exfalso. rewrite <- Lq in F, Hj.
      destruct (flip_lower sq j ltac:(rewrite Lq; auto) Hj F) as (C1 & C2 & C3). apply Hz'.
      destruct (C03_sz_blocks n indexing Hn Ev Hix) as (_ & A & _). apply A; auto. eexists. split; [rewrite C1; exact Lq|].
      split; congruence.
Qed.
Theorem C17_raise : forall n indexing si c sz, spin_indexing n indexing si -> c <= n -> In sz (szrange c n) ->
  exists states, get_lst si c (Some sz) None = Some states /\
  ((In (sz + 2)%Z (szrange c n) /\ exists statesp m, get_lst si c (Some (sz + 2)%Z) None = Some statesp /\
      operator_sp c sz si = Some (SMat (length statesp) (length states) m) /\
      forall p q sp sq, block_state si statesp p sp -> block_state si states q sq ->
        m p q = mel ZRing (spin_raise ZRing (Nat.div2 n)) sp sq) \/
   (~ In (sz + 2)%Z (szrange c n) /\ operator_sp c sz si = Some SZero /\
      forall q sq t, block_state si states q sq -> length t = n -> mel ZRing (spin_raise ZRing (Nat.div2 n)) t sq = 0%Z)).
Proof.
  intros n indexing si c sz (Hn & Ev & Hix & ->) Hc Hz.
  destruct (block_ex n indexing Hn Ev Hix c sz Hc Hz) as (blk & B). exists blk. split; [apply B|].
  destruct (in_dec Z.eq_dec (sz + 2)%Z (szrange c n)) as [Hz'|Hz'].
  - left. split; auto. destruct (block_ex n indexing Hn Ev Hix c _ Hc Hz') as (blk' & B').
    destruct (raise_matrix n indexing Hn Ev c sz blk blk' Hc Hz Hz' B B') as (m & E & V). exists blk', m.
    split; [apply B'|]. split; auto.
  - right. split; auto. split.
    + unfold operator_sp. rewrite init_n. destruct (sz + 2 >? szmax c n)%Z eqn:G; auto.
      exfalso. apply Hz'. now apply range_up.
    + intros q sq t (k & Ek & Es) Lt. pose proof (two_h n Ev) as TH. rewrite spin_raise_ladder.
      assert (Hk : k < si_nmany (si_init n indexing)) by (apply B; eapply nth_error_In; eauto).
      pose proof (gs_len _ _ _ (si_rc n indexing Hn) k sq Hk Es) as Lq.
      destruct B as (_ & _ & _ & M). destruct (proj1 (M k) (nth_error_In _ _ Ek)) as (s' & Es' & A1 & A2).
      assert (s' = sq) by congruence. subst s'.
      apply (mel_ladder_zero ZRing (Nat.div2 n) _ _ n); auto; try (intros; lia).
      intros j Hj F. exfalso. rewrite <- Lq in F, Hj.
      destruct (flip_raise sq j ltac:(rewrite Lq; auto) Hj F) as (C1 & C2 & C3). apply Hz'.
      destruct (C03_sz_blocks n indexing Hn Ev Hix) as (_ & A & _). apply A; auto. eexists. split; [rewrite C1; exact Lq|].
      split; congruence.
Qed.

(** S^+ and S^- between two neighbouring blocks are transposes *)
Theorem C17_transpose : forall n indexing si c sz, spin_indexing n indexing si -> c <= n ->
  In sz (szrange c n) -> In (sz - 2)%Z (szrange c n) ->
  exists d d' m m', operator_sm c sz si = Some (SMat d' d m) /\ operator_sp c (sz - 2) si = Some (SMat d d' m') /\
    forall p q, p < d' -> q < d -> m' q p = m p q.
Proof.
  intros n indexing si c sz (Hn & Ev & Hix & ->) Hc Hz Hz'.
  destruct (block_ex n indexing Hn Ev Hix c sz Hc Hz) as (blk & B).
  destruct (block_ex n indexing Hn Ev Hix c _ Hc Hz') as (blk' & B').
  destruct (lower_matrix n indexing Hn Ev c sz blk blk' Hc Hz Hz' B B') as (m & E & V).
  assert (R : (sz - 2 + 2 = sz)%Z) by lia.
  destruct (raise_matrix n indexing Hn Ev c (sz - 2) blk' blk Hc Hz' ltac:(rewrite R; auto) B' ltac:(rewrite R; auto)) as (m' & E' & V').
  exists (length blk), (length blk'), m, m'. split; auto. split; auto. intros p q Hp Hq.
  destruct (st_ok n indexing Hn c sz blk q B Hq) as (Sq & Lq & _).
  destruct (st_ok n indexing Hn c _ blk' p B' Hp) as (Sp & Lp & _).
  rewrite (V' q p _ _ Sq Sp), (V p q _ _ Sp Sq). pose proof (two_h n Ev) as TH. exact (spin_adjoint ZRing (Nat.div2 n) _ _ (eq_trans Lq TH) (eq_trans Lp TH)).
Qed.

Lemma rn_Z : forall m, rn ZRing m = Z.of_nat m.
Proof. induction m; auto. cbn [rn]. rewrite IHm. rewrite Nat2Z.inj_succ. change (1 + Z.of_nat m = Z.succ (Z.of_nat m))%Z. lia. Qed.

(** S^+ S^- - S^- S^+ = 4 sz on every block *)
Theorem C17_commutator : forall n indexing si c sz, spin_indexing n indexing si -> c <= n -> In sz (szrange c n) ->
  exists states, get_lst si c (Some sz) None = Some states /\
    square (sp_sm c sz si) (length states) /\ square (sm_sp c sz si) (length states) /\
    forall p q, p < length states -> q < length states ->
      (sval (sp_sm c sz si) p q - sval (sm_sp c sz si) p q)%Z = if p =? q then (4 * sz)%Z else 0%Z.
Proof.
  intros n indexing si c sz (Hn & Ev & Hix & ->) Hc Hz.
  destruct (block_ex n indexing Hn Ev Hix c sz Hc Hz) as (blk & B). exists blk. split; [apply B|].
  destruct (sp_sm_value n indexing Hn Ev Hix c sz blk Hc Hz B) as (S1 & V1).
  destruct (sm_sp_value n indexing Hn Ev Hix c sz blk Hc Hz B) as (S2 & V2).
  split; auto. split; auto. intros p q Hp Hq. rewrite V1, V2 by auto.
  destruct (st_ok n indexing Hn c sz blk p B Hp) as (Sp & Lp & Cp & Up).
  destruct (st_ok n indexing Hn c sz blk q B Hq) as (Sq & Lq & Cq & Uq).
  pose proof (two_h n Ev) as TH. unfold mel, ocomp.
  pose proof (spin_commutator ZRing (Nat.div2 n) (basis ZRing (st n indexing blk q)) (st n indexing blk p) ltac:(rewrite Lp; exact TH)) as C.
  cbn [rsub ZRing] in C. rewrite C. rewrite !rn_Z. cbn [rmul rsub ZRing].
  assert (U : (Z.of_nat (ones (firstn (Nat.div2 n) (st n indexing blk p))) - Z.of_nat (ones (skipn (Nat.div2 n) (st n indexing blk p))))%Z = sz).
  { rewrite <- Up. unfold up_minus_down. rewrite Lp, !ones_electrons. reflexivity. }
  rewrite U. change (two ZRing) with 2%Z. destruct (Nat.eqb_spec p q) as [->|Hne].
  - rewrite basis_refl. cbn [r1 ZRing]. lia.
  - rewrite basis_neq; [cbn [r0 ZRing]; lia|]. intros E. apply Hne. eapply (st_inj n indexing Hn c sz blk p q); eauto.
Qed.

(** S^2: symmetric; the integer halving is exact; either product alone gives the same matrix *)
Theorem C17_ssquare : forall n indexing si c sz, spin_indexing n indexing si -> c <= n -> In sz (szrange c n) ->
  exists states m, get_lst si c (Some sz) None = Some states /\
    operator_ssquare c sz si = Some (SMat (length states) (length states) m) /\
    forall p q, p < length states -> q < length states ->
      let a := sval (sp_sm c sz si) p q in let b := sval (sm_sp c sz si) p q in
      let one := if p =? q then 1%Z else 0%Z in
      m p q = m q p /\
      (2 * m p q = a + b + 2 * (sz * sz) * one)%Z /\
      (m p q = a + sz * (sz - 2) * one)%Z /\
      (m p q = b + sz * (sz + 2) * one)%Z.
Proof.
  intros n indexing si c sz SI0 Hc Hz. pose proof SI0 as (Hn & Ev & Hix & E0).
  destruct (C17_commutator n indexing si c sz SI0 Hc Hz) as (blk & EB & S1 & S2 & CM). subst si.
  destruct (block_ex n indexing Hn Ev Hix c sz Hc Hz) as (blk1 & B).
  assert (blk1 = blk) by (destruct B as (B & _); congruence). subst blk1.
  destruct (sp_sm_value n indexing Hn Ev Hix c sz blk Hc Hz B) as (_ & V1).
  assert (SYM : forall p q, p < length blk -> q < length blk ->
     sval (sm_sp c sz (si_init n indexing)) p q = sval (sm_sp c sz (si_init n indexing)) q p).
  { intros p q Hp Hq. pose proof (two_h n Ev) as TH.
    pose proof (sm_sp_value n indexing Hn Ev Hix c sz blk Hc Hz B) as (_ & V2). rewrite !V2 by auto.
    destruct (st_ok n indexing Hn c sz blk p B Hp) as (Sp & Lp & Cp & Up).
    destruct (st_ok n indexing Hn c sz blk q B Hq) as (Sq & Lq & Cq & Uq).
    destruct (in_dec Z.eq_dec (sz + 2)%Z (szrange c n)) as [Hz'|Hz'].
    - rewrite <- !V2 by auto. unfold sm_sp. rewrite init_n.
      assert (G : (sz + 2 <=? szmax c n)%Z = true).
      { apply (range_up n Hn c sz Hc Hz) in Hz'. rewrite Z.gtb_ltb in Hz'. apply Z.ltb_ge in Hz'. apply Z.leb_le. lia. }
      rewrite G. assert (R : (sz + 2 - 2 = sz)%Z) by lia.
      destruct (C17_transpose n indexing _ c (sz + 2) SI0 Hc Hz' ltac:(rewrite R; auto)) as (d & d' & m & m' & E1 & E2 & T).
      rewrite R in E2. destruct (block_ex n indexing Hn Ev Hix c _ Hc Hz') as (blk' & B').
      destruct (raise_matrix n indexing Hn Ev c sz blk blk' Hc Hz Hz' B B') as (m'' & E3 & _).
      assert (d' = length blk /\ d = length blk') as [-> ->] by (rewrite E2 in E3; injection E3 as -> -> ->; auto).
      rewrite E1, E2. cbn [sdot]. rewrite Nat.eqb_refl. cbn [sval]. apply (rsum_ext ZRing). intros i Hi. apply in_seq in Hi.
      rewrite (T p i) by (auto; lia). rewrite (T q i) by (auto; lia). apply Z.mul_comm.
    - destruct (C17_raise n indexing _ c sz SI0 Hc Hz) as (blk2 & EB2 & [[H _]|(_ & _ & Z0)]); [contradiction|].
      assert (blk2 = blk) by congruence. subst blk2. unfold mel, ocomp.
      assert (K0 : forall q, q < length blk -> forall p, length p = n ->
         spin_lower ZRing (Nat.div2 n) (spin_raise ZRing (Nat.div2 n) (basis ZRing (st n indexing blk q))) p = 0%Z).
      { intros q0 Hq0 p0 Lp0. destruct (st_ok n indexing Hn c sz blk q0 B Hq0) as (Sq0 & _).
        rewrite (lower_ext n _ (fun _ => 0%Z)).
        - rewrite spin_lower_ladder, ladder_sum. apply (rsum_0 ZRing). intros j _.
          unfold hop, ocomp. rewrite cre_on0; [reflexivity|]. intros. apply ann_zero.
        - intros x Lx. apply (Z0 q0 _ x Sq0). congruence. }
      rewrite !K0; auto. }
  unfold operator_ssquare. rewrite EB.
  set (A := sp_sm c sz (si_init n indexing)) in *. set (Bb := sm_sp c sz (si_init n indexing)) in *.
  assert (RES : exists m, sadd (shalve (sadd A Bb)) (Some (SMat (length blk) (length blk) (fun p q => if p =? q then (sz * sz)%Z else 0%Z)))
     = Some (SMat (length blk) (length blk) m) /\ forall p q, m p q = ((sval A p q + sval Bb p q) / 2 + (if (p =? q)%nat then sz * sz else 0))%Z).
  { destruct A as [[|r1' c1' m1]|], Bb as [[|r2' c2' m2]|]; cbn [square] in S1, S2; try contradiction.
    - eexists. split; [reflexivity|]. intros. cbn. reflexivity.
    - destruct S2 as [-> ->]. cbn [sadd shalve]. rewrite !Nat.eqb_refl. eexists. split; [reflexivity|]. intros. cbn. reflexivity.
    - destruct S1 as [-> ->]. cbn [sadd shalve]. rewrite !Nat.eqb_refl. eexists. split; [reflexivity|]. intros. cbn [sval].
      now rewrite Z.add_0_r.
    - destruct S1 as [-> ->], S2 as [-> ->]. cbn [sadd shalve]. rewrite !Nat.eqb_refl. cbn [andb shalve sadd]. rewrite !Nat.eqb_refl.
      eexists. split; [reflexivity|]. intros. reflexivity. }
  destruct RES as (m & EM & VM). exists blk, m. split; auto. split; auto. intros p q Hp Hq. cbv zeta.
  pose proof (CM p q Hp Hq) as C1. pose proof (CM q p Hq Hp) as C2. pose proof (SYM p q Hp Hq) as S3. rewrite !VM.
  rewrite (Nat.eqb_sym q p) in *.
  assert (F : forall a b z, (a - b = 4 * z)%Z -> ((a + b) / 2 = b + 2 * z)%Z).
  { intros a b z E. replace (a + b)%Z with ((b + 2 * z) * 2)%Z by lia. apply Z.div_mul. lia. }
  destruct (p =? q).
  - rewrite (F _ _ sz C1), (F _ _ sz C2). lia.
  - rewrite (F _ _ 0%Z) by lia. rewrite (F (sval A q p) (sval Bb q p) 0%Z) by lia. lia.
Qed.

(** on the highest-sz block S^2 is sz (sz + 2), on the lowest sz (sz - 2) *)
Corollary C17_extreme : forall n indexing si c, spin_indexing n indexing si -> c <= n ->
  exists states m, get_lst si c (Some (szmax c n)) None = Some states /\
    operator_ssquare c (szmax c n) si = Some (SMat (length states) (length states) m) /\
    forall p q, p < length states -> q < length states ->
      m p q = if p =? q then (szmax c n * (szmax c n + 2))%Z else 0%Z.
Proof.
  intros n indexing si c SI0 Hc.
  assert (Hz : In (szmax c n) (szrange c n)).
  { apply szrange_in; auto. exists (smax n c). rewrite smax_szmax by auto. lia. }
  destruct (C17_ssquare n indexing si c _ SI0 Hc Hz) as (states & m & E & EM & V). exists states, m. split; auto. split; auto.
  intros p q Hp Hq. destruct (V p q Hp Hq) as (_ & _ & _ & ->). destruct SI0 as (Hn & Ev & Hix & ->).
  assert (Z0 : sval (sm_sp c (szmax c n) (si_init n indexing)) p q = 0%Z).
  { unfold sm_sp. rewrite init_n. assert (G : (szmax c n + 2 <=? szmax c n)%Z = false) by (apply Z.leb_gt; lia). now rewrite G. }
  rewrite Z0. destruct (p =? q); lia.
Qed.

Print Assumptions C17_lower.
Print Assumptions C17_raise.
Print Assumptions C17_transpose.
Print Assumptions C17_commutator.
Print Assumptions C17_ssquare.
Print Assumptions C17_extreme.

(** three electrons on three orbitals, sz = 1: a nine-by-nine S^2; one row of each matrix *)
Definition table (a : option spinop) : list (list Z) :=
  match a with Some (SMat r c m) => map (fun p => map (m p) (seq 0 c)) (seq 0 r) | _ => [] end.
Example C17_case : let si := si_init 6 "ssq" in
  spin_indexing 6 "ssq" si /\ In 1%Z (szrange 3 6) /\ In (1 - 2)%Z (szrange 3 6) /\
  nth 1 (table (operator_sm 3 1 si)) [] = [0; 0; 0; -2; 0; 0; 0; 0; 0]%Z /\
  map (fun p => sval (sp_sm 3 1 si) p p) (seq 0 9) = [4; 4; 8; 4; 8; 4; 8; 4; 4]%Z /\
  map (fun p => sval (sm_sp 3 1 si) p p) (seq 0 9) = [0; 0; 4; 0; 4; 0; 4; 0; 0]%Z /\
  length (table (operator_ssquare 3 1 si)) = 9 /\
  nth 2 (table (operator_ssquare 3 1 si)) [] = [0; 0; 7; 0; -4; 0; 4; 0; 0]%Z /\
  operator_sm 3 (-3) si = Some SZero.
Proof. cbv zeta. split; [repeat split; auto; lia|]. vm_compute. repeat split; auto. Qed.
