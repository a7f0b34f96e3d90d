(** Properties C13-C16: the matrices built in the Fock basis are the second-quantised operators. *)
From Coq Require Import String List Arith Lia Bool ZArith Permutation.
From Verif Require Import Base Bits Indexing IndexingProofs RemoveProofs PropIndexing CRing Fock Operators OperatorsProofs.
Import ListNotations.
Open Scope nat_scope.
Local Notation length := List.length.

(** Indexings produced by the constructor and calls of remove_fock_states for which C06 holds:
    any number of calls for 'charge' and 'sz', at most one for 'Lin', none for 'ssq'
    (remove_fock_states refuses 'ssq'). *)
Definition reachable_si (n : nat) (name : string) (ops : list (list nat)) (si : SI) : Prop :=
  1 <= n /\ (forall k, In k (concat ops) -> k < 2 ^ n) /\
  remove_many (si_init n name) ops = Some si /\
  (ix_of name n = IxCharge \/ ix_of name n = IxSz \/ (ix_of name n = IxLin /\ length ops <= 1) \/ ops = []).

Lemma reachable_correct : forall n name ops si, reachable_si n name ops si -> removal_correct n (concat ops) si.
Proof.
  intros n name ops si (Hn & Hk & E & H).
  assert (I : ops = [] -> removal_correct n (concat ops) si).
  { intros ->. simpl in *. injection E as <-. apply removal_of_ok; auto; [apply init_n|].
    eapply si_ok_ext; [|apply si_init_ok]. reflexivity. }
  destruct H as [H|[H|[(H & L)|H]]]; auto.
  - destruct (C06_remove_history n name ops Hn (or_introl H) Hk) as (si' & E' & R). congruence.
  - destruct (C06_remove_history n name ops Hn (or_intror H) Hk) as (si' & E' & R). congruence.
  - destruct ops as [|lin [|]]; simpl in L; try lia; auto.
    simpl in *. rewrite app_nil_r in *.
    destruct (C06_remove_lin_once_partial n name lin Hn H Hk) as (si' & E' & R). rewrite E' in E. congruence.
Qed.

Section Operators.
Variable K : CRing.
Notation C := (Cx K).
Add Ring CopsP : (rth C).
Local Open Scope rng_scope.

Local Notation a_ i := (ann C i).
Local Notation a' i := (cre C i).

(** *** C13 *)
(** sum_i t_(l,i) d_i^dagger + conj(t_(l,i)) d_i *)
Definition tunnel_op (tleads : list ((nat * nat) * C)) (l : nat) : op C :=
  osum C (fun e => let '((l', i), t) := e in
                 if Nat.eqb l' l then oplus C (oscale C t (cre C i)) (oscale C (conj t) (ann C i)) else ozero C) tleads.

Theorem C13_tunnelling : forall n name ops si nleads tleads Tba_, reachable_si n name ops si ->
  (forall l i t, In ((l, i), t) tleads -> (l < nleads /\ i < n)%nat) ->
  exists Tba, construct_Tba K si nleads tleads Tba_ = Some Tba /\
    forall l k' k s' s, (k' < si_nmany si)%nat -> (k < si_nmany si)%nat ->
      get_state si k' = Some s' -> get_state si k = Some s ->
      Tba (l, k', k) = Tba_ (l, k', k) + mel C (tunnel_op tleads l) s' s.
Proof.
  intros n name ops si nleads tleads Tba_ RS HT. pose proof (reachable_correct _ _ _ _ RS) as RC.
  pose (us := fun j1 (e : (nat * nat) * C) => match get_state si j1 with None => [] | Some st =>
                 match tba_step K si nleads j1 st e with Some u => u | None => [] end end).
  assert (ST : forall j1 s e, (j1 < si_nmany si)%nat -> get_state si j1 = Some s -> In e tleads ->
     tba_step K si nleads j1 s e = Some (us j1 e) /\
     forall l k' s', (k' < si_nmany si)%nat -> get_state si k' = Some s' -> forall k,
       rsum (fun u => if eq3 (l, k', k) (fst u) then snd u else 0) (us j1 e) =
       if Nat.eqb j1 k then (let '((l', i), t) := e in
          if Nat.eqb l' l then t * mel C (cre C i) s' s + conj t * mel C (ann C i) s' s else 0) else 0).
  { intros j1 s [[l0 i] t] Hj Es He. destruct (HT _ _ _ He) as (Hl & Hi).
    pose proof (gs_len _ _ _ RC _ _ Hj Es) as Ls.
    unfold us. rewrite Es. unfold tba_step. rewrite nth_error_occ by lia.
    set (u := set_nth i (if occ_at i s then false else true) s).
    assert (Lu : length u = n) by (unfold u; rewrite set_nth_length; auto).
    assert (Op : forall s', length s' = n -> t * mel C (cre C i) s' s + conj t * mel C (ann C i) s' s =
       (if occ_at i s then sgn C (charge_of (firstn i s)) * conj t else sgn C (charge_of (firstn i s)) * t) * basis C u s').
    { intros s' Ls'. unfold mel. rewrite cre_basis, ann_basis by lia. unfold jw. rewrite ones_charge.
      unfold u, put. destruct (occ_at i s); ring. }
    destruct (gi_cases _ _ _ RC u Lu) as [(k0 & G & Hk0 & Gs)|(G & N)]; rewrite G.
    - rewrite (proj2 (Nat.ltb_lt l0 nleads)) by auto. rewrite (proj2 (Nat.ltb_lt k0 (si_nmany si))) by auto.
      rewrite (proj2 (Nat.ltb_lt j1 (si_nmany si))) by auto. cbn [andb]. split; auto.
      intros l k' s' Hk' Es' k. rewrite Op by (eapply gs_len; eauto). rewrite (hit _ _ _ RC K u k0 k' s') by auto.
      cbn [rsum fst snd]. destruct (eq3 (l, k', k) (l0, k0, j1)) as [E|E].
      + injection E as -> -> ->. rewrite !Nat.eqb_refl. ring.
      + destruct (Nat.eqb_spec j1 k), (Nat.eqb_spec l0 l), (Nat.eqb_spec k' k0); try ring. congruence.
    - split; auto. intros l k' s' Hk' Es' k. rewrite Op by (eapply gs_len; eauto).
      rewrite (miss _ _ _ RC K u k' s') by auto. cbn [rsum].
      destruct (Nat.eqb j1 k), (Nat.eqb l0 l); ring. }
  unfold construct_Tba.
  rewrite (oconcat_some _ _ _ (fun j1 => flat_map (us j1) tleads)).
  2: { intros j1 Hj. apply in_seq in Hj. destruct (gs_ex _ _ _ RC j1) as (s & Es & _); [lia|]. rewrite Es.
       apply oconcat_some. intros e He. apply (ST j1 s e); auto. lia. }
  eexists. split; [reflexivity|]. intros l k' k s' s Hk' Hk Es' Es.
  rewrite run_updates_sum. f_equal. rewrite rsum_flat_map.
  rewrite (rsum_ext C _ _ (fun j1 => rsum (fun e => rsum (fun u => if eq3 (l, k', k) (fst u) then snd u else 0) (us j1 e)) tleads)).
  2: { intros j1 _. apply rsum_flat_map. }
  unfold tunnel_op. rewrite osum_mel.
  apply (loop_column C) with (k := k); auto.
  intros j1 e He Hj. destruct (gs_ex _ _ _ RC j1 Hj) as (s1 & Es1 & _).
  rewrite (proj2 (ST j1 s1 e Hj Es1 He) l k' s' Hk' Es' k).
  destruct (Nat.eqb_spec j1 k) as [->|]; auto. assert (s1 = s) by congruence. subst s1.
  destruct e as [[l0 i] t]. destruct (Nat.eqb l0 l); reflexivity.
Qed.

(** Hermitian and charge changing by one *)
Theorem C13_hermitian_and_selection : forall n name ops si nleads tleads Tba, reachable_si n name ops si ->
  (forall l i t, In ((l, i), t) tleads -> (l < nleads /\ i < n)%nat) ->
  construct_Tba K si nleads tleads zeros = Some Tba ->
  forall l k' k, (k' < si_nmany si)%nat -> (k < si_nmany si)%nat ->
    Tba (l, k', k) = conj (Tba (l, k, k')) /\
    forall s' s, get_state si k' = Some s' -> get_state si k = Some s ->
      Tba (l, k', k) <> 0 -> (electrons s' = S (electrons s) \/ electrons s = S (electrons s'))%nat.
Proof.
  intros n name ops si nleads tleads Tba RS HT E l k' k Hk' Hk.
  pose proof (reachable_correct _ _ _ _ RS) as RC.
  destruct (C13_tunnelling n name ops si nleads tleads zeros RS HT) as (T & E' & H).
  rewrite E' in E. injection E as <-.
  destruct (gs_ex _ _ _ RC k' Hk') as (s' & Es' & Ls'). destruct (gs_ex _ _ _ RC k Hk) as (s & Es & Ls).
  rewrite (H l k' k s' s), (H l k k' s s') by auto. unfold zeros, tunnel_op. rewrite !osum_mel.
  assert (A1 : forall i, (i < n)%nat -> conj (mel C (cre C i) s s') = mel C (ann C i) s' s).
  { intros i Hi. rewrite (adjoint C i s' s) by lia.
    change (conj (wop K [(false, i)] s' s) = wop K [(false, i)] s' s). apply conj_wop; [lia|].
    intros b j [Ej|[]]. injection Ej as <- <-. lia. }
  assert (A2 : forall i, (i < n)%nat -> conj (mel C (ann C i) s s') = mel C (cre C i) s' s).
  { intros i Hi. rewrite (adjoint C i s s') by lia.
    change (conj (wop K [(false, i)] s s') = wop K [(false, i)] s s'). apply conj_wop; [lia|].
    intros b j [Ej|[]]. injection Ej as <- <-. lia. }
  split.
  - rewrite conj_add, rsum_conj, conj_0. f_equal. apply rsum_ext. intros [[l0 i] t] He.
    destruct (HT _ _ _ He) as (Hl & Hi). destruct (Nat.eqb l0 l); [|symmetry; apply conj_0].
    unfold mel, oplus, oscale in *. rewrite conj_add, !conj_mul, conj_conj, A1, A2 by auto. ring.
  - intros s2' s2 E2' E2 Hne. assert (s2' = s') by congruence. assert (s2 = s) by congruence. subst.
    rewrite <- !ones_electrons.
    destruct (Nat.eq_dec (ones s') (S (ones s))) as [|D1]; auto.
    destruct (Nat.eq_dec (ones s) (S (ones s'))) as [|D2]; auto.
    exfalso. apply Hne. rewrite rsum_0. { ring. } intros [[l0 i] t] He. destruct (HT _ _ _ He) as (Hl & Hi).
    destruct (Nat.eqb l0 l); [|reflexivity]. unfold mel, oplus, oscale.
    assert (W1 : cre C i (basis C s) s' = 0).
    { change (mel C (word C [(true, i)]) s' s = 0). apply word_charge; [lia| |simpl; lia]. intros b j [Ej|[]]. injection Ej as <- <-. lia. }
    assert (W2 : ann C i (basis C s) s' = 0).
    { change (mel C (word C [(false, i)]) s' s = 0). apply word_charge; [lia| |simpl; lia]. intros b j [Ej|[]]. injection Ej as <- <-. lia. }
    rewrite W1, W2. ring.
Qed.

(** *** blocks *)
(** A list of states on which the loops of qdot.py are run: state indices without repetition that
    is closed under a relation between Fock states. *)
Definition closed_block (si : SI) (R : list bool -> list bool -> Prop) (statelst : list nat) : Prop :=
  NoDup statelst /\ (forall k, In k statelst -> (k < si_nmany si)%nat) /\
  forall k k' s s', In k statelst -> (k' < si_nmany si)%nat -> get_state si k = Some s -> get_state si k' = Some s' ->
    R s s' -> In k' statelst.
(** the state at position p of the block *)
Definition block_state (si : SI) (statelst : list nat) (p : nat) (s : list bool) : Prop :=
  exists k, nth_error statelst p = Some k /\ get_state si k = Some s.

Definition same_charge (s s' : list bool) : Prop := electrons s = electrons s'.

Lemma charge_block_closed : forall n name ops si c, reachable_si n name ops si -> (c <= n)%nat ->
  exists blk, get_lst si c None None = Some blk /\ closed_block si same_charge blk /\
    forall k, In k blk <-> ((k < si_nmany si)%nat /\ exists s, get_state si k = Some s /\ electrons s = c).
Proof.
  intros n name ops si c RS Hc. destruct (reachable_correct _ _ _ _ RS) as (_ & _ & _ & _ & R).
  destruct (R c Hc) as (blk & E & ND & In_). exists blk. split; auto. split; auto.
  split; auto. split; [intros k Hk; now apply In_|].
  intros k k' s s' Hk Hk' Es Es' Q. apply In_. split; auto. exists s'. split; auto.
  apply In_ in Hk. destruct Hk as (_ & s0 & E0 & Q0). unfold same_charge in Q. congruence.
Qed.

(** generic statement about one block: the result adds the matrix elements of an operator *)
Lemma block_generic : forall A n removed si (R : list bool -> list bool -> Prop) statelst
    (step : nat -> list bool -> A -> option (list ((nat * nat) * C))) (items : list A)
    (D E : A -> list bool -> list bool -> C) (V : A -> Prop),
  removal_correct n removed si -> closed_block si R statelst ->
  (forall e, In e items -> V e) ->
  (forall j1 k s e, nth_error statelst j1 = Some k -> get_state si k = Some s -> V e ->
     exists us, step j1 s e = Some us /\
       forall p q sp, block_state si statelst p sp -> (q < length statelst)%nat ->
         forall sq, block_state si statelst q sq ->
         rsum (fun u => if eq2 (p, q) (fst u) then snd u else 0) us =
         (if Nat.eqb j1 q then D e sp s else 0) + (if Nat.eqb j1 p then E e s sq else 0)) ->
  exists us, block_loop K si statelst step items = Some us /\
    forall ham_ p q sp sq, block_state si statelst p sp -> block_state si statelst q sq ->
      run_updates eq2 us ham_ (p, q) = ham_ (p, q) + rsum (fun e => D e sp sq + E e sp sq) items.
Proof.
  intros A n removed si R statelst step items D E V RC (ND & Hlt & _) HV H.
  pose (us := fun j1 e => match nth_error statelst j1 with None => [] | Some k =>
               match get_state si k with None => [] | Some s =>
               match step j1 s e with Some u => u | None => [] end end end).
  assert (EX : forall j1, (j1 < length statelst)%nat -> exists k s,
    nth_error statelst j1 = Some k /\ get_state si k = Some s).
  { intros j1 Hj. destruct (nth_error statelst j1) as [k|] eqn:Ek; [|apply nth_error_None in Ek; lia].
    destruct (gs_ex _ _ _ RC k) as (s & Es & _). { apply Hlt. eapply nth_error_In; eauto. } eauto. }
  exists (flat_map (fun j1 => flat_map (us j1) items) (seq 0 (length statelst))). split.
  - unfold block_loop. apply oconcat_some. intros j1 Hj. apply in_seq in Hj.
    destruct (EX j1) as (k & s & Ek & Es); [lia|]. rewrite Ek, Es. apply oconcat_some.
    intros e He. unfold us. rewrite Ek, Es. destruct (H j1 k s e Ek Es (HV e He)) as (u & -> & _). reflexivity.
  - intros ham_ p q sp sq Bp Bq. rewrite run_updates_sum. f_equal. rewrite rsum_flat_map.
    rewrite (rsum_ext C _ _ (fun j1 => rsum (fun e => rsum (fun u => if eq2 (p, q) (fst u) then snd u else 0) (us j1 e)) items)).
    2: { intros j1 _. apply rsum_flat_map. }
    assert (Lp : (p < length statelst)%nat). { destruct Bp as (k & Ek & _). apply nth_error_Some. congruence. }
    assert (Lq : (q < length statelst)%nat). { destruct Bq as (k & Ek & _). apply nth_error_Some. congruence. }
    apply (loop_cross C) with (p := p) (q := q); auto.
    intros j1 e He Hj. destruct (EX j1 Hj) as (k & s & Ek & Es). unfold us. rewrite Ek, Es.
    destruct (H j1 k s e Ek Es (HV e He)) as (u & -> & Hu). rewrite (Hu p q sp Bp Lq sq Bq).
    f_equal.
    + destruct (Nat.eqb_spec j1 q) as [->|]; auto. destruct Bq as (k2 & Ek2 & Es2).
      rewrite Ek2 in Ek. injection Ek as ->. congruence.
    + destruct (Nat.eqb_spec j1 p) as [->|]; auto. destruct Bp as (k2 & Ek2 & Es2).
      rewrite Ek2 in Ek. injection Ek as ->. congruence.
Qed.

(** writing at the block position of [u] *)
Lemma block_hit : forall n removed si R statelst u ind pos p sp, removal_correct n removed si -> closed_block si R statelst ->
  length u = n -> get_ind si u = Ind ind -> index_of ind statelst = Some pos -> block_state si statelst p sp ->
  basis C u sp = if Nat.eqb p pos then 1 else 0.
Proof.
  intros n removed si R statelst u ind pos p sp RC (ND & Hlt & _) Lu G I (k & Ek & Es).
  destruct (index_of_some _ _ _ I) as (Lpos & Epos).
  assert (Lk : (k < si_nmany si)%nat) by (apply Hlt; eapply nth_error_In; eauto).
  rewrite (hit _ _ _ RC K u ind k sp) by auto.
  assert (Ek' : nth p statelst 0%nat = k) by (now apply nth_of_nth_error).
  assert (Lp : (p < length statelst)%nat) by (apply nth_error_Some; congruence).
  destruct (Nat.eqb_spec k ind) as [Q|Q], (Nat.eqb_spec p pos) as [Q'|Q']; auto; exfalso.
  - apply Q'. apply (proj1 (NoDup_nth statelst 0%nat) ND); auto; congruence.
  - congruence.
Qed.
Lemma block_miss : forall n removed si R statelst u p sp, removal_correct n removed si -> closed_block si R statelst ->
  length u = n -> get_ind si u = IndNone -> block_state si statelst p sp -> basis C u sp = 0.
Proof.
  intros n removed si R statelst u p sp RC (ND & Hlt & _) Lu G (k & Ek & Es).
  eapply miss; eauto. apply Hlt. eapply nth_error_In; eauto.
Qed.

(** *** C14 *)
(** h d_j^dagger d_i (+ conj(h) d_i^dagger d_j for i <> j and herm_hs) *)
Definition hop_op (herm_hs : bool) (e : (nat * nat) * C) : op C :=
  let '((i, j), h) := e in
  oplus C (oscale C h (ocomp C (cre C j) (ann C i)))
          (if herm_hs && negb (Nat.eqb i j) then oscale C (conj h) (ocomp C (cre C i) (ann C j)) else ozero C).

(** one electron moved from level i to level j *)
Definition moves (keys : list (nat * nat)) (s s' : list bool) : Prop :=
  exists i j, In (i, j) keys /\ i <> j /\ occ_at i s = true /\ occ_at j s = false /\ s' = put j true (put i false s).

Lemma moves_charge : forall keys n s s', (forall i j, In (i, j) keys -> (i < n /\ j < n)%nat) -> length s = n ->
  moves keys s s' -> same_charge s s'.
Proof.
  intros keys n s s' HK Ls (i & j & Hin & Hne & Ei & Ej & ->). destruct (HK _ _ Hin) as (Hi & Hj).
  unfold same_charge. rewrite <- !ones_electrons.
  rewrite ones_put_true; [|rewrite put_length; lia|rewrite occ_put_other; auto].
  rewrite ones_put_false; auto; lia.
Qed.

Theorem C14_hopping_block : forall n name ops si herm_hs hsingle statelst ham_, reachable_si n name ops si ->
  (forall i j h, In ((i, j), h) hsingle -> (i < n /\ j < n)%nat) ->
  closed_block si (moves (map fst hsingle)) statelst ->
  exists ham, construct_ham_hopping K si herm_hs hsingle statelst ham_ = Some ham /\
    forall p q sp sq, block_state si statelst p sp -> block_state si statelst q sq ->
      ham (p, q) = ham_ (p, q) + mel C (osum C (hop_op herm_hs) hsingle) sp sq.
Proof.
  intros n name ops si herm_hs hsingle statelst ham_ RS HK CB. pose proof (reachable_correct _ _ _ _ RS) as RC.
  assert (G : exists us, block_loop K si statelst (hop_step K si herm_hs statelst) hsingle = Some us /\
    forall ham_ p q sp sq, block_state si statelst p sp -> block_state si statelst q sq ->
      run_updates eq2 us ham_ (p, q) = ham_ (p, q) +
        rsum (fun e => (let '((i, j), h) := e in h * wop K [(true, j); (false, i)] sp sq)
                     + (let '((i, j), h) := e in
                        if herm_hs && negb (Nat.eqb i j) then conj h * wop K [(true, j); (false, i)] sq sp else 0)) hsingle).
  { apply (block_generic _ n _ si (moves (map fst hsingle)) statelst _ hsingle
      (fun e sp sq => let '((i, j), h) := e in h * wop K [(true, j); (false, i)] sp sq)
      (fun e sp sq => let '((i, j), h) := e in
                        if herm_hs && negb (Nat.eqb i j) then conj h * wop K [(true, j); (false, i)] sq sp else 0)
      (fun e => In e hsingle) RC CB); auto.
    intros j1 k s [[i j] h] Ek Es He. destruct (HK _ _ _ He) as (Hi & Hj).
    assert (Ink : In k statelst) by (eapply nth_error_In; eauto).
    assert (Lk : (k < si_nmany si)%nat) by (apply CB; auto).
    pose proof (gs_len _ _ _ RC _ _ Lk Es) as Ls.
    assert (Lb : forall p sp, block_state si statelst p sp -> length sp = n).
    { intros p sp (k2 & E2 & E2'). apply (gs_len _ _ _ RC k2); auto. apply CB. eapply nth_error_In; eauto. }
    unfold hop_step. rewrite (nth_error_occ s i) by lia.
    destruct (Nat.eqb_spec i j) as [->|Hne].
    - (* diagonal *)
      rewrite andb_false_r.
      exists (if occ_at j s then [((j1, j1), h)] else []). split; [now destruct (occ_at j s)|].
      intros p q sp Bp Lq sq Bq. rewrite num_sign by (try rewrite (Lb _ _ Bp); lia).
      destruct (occ_at j s) eqn:Eo; cbn [rsum fst snd].
      2: { destruct (Nat.eqb j1 q), (Nat.eqb j1 p); ring. }
      assert (HB : basis C s sp = if Nat.eqb p j1 then 1 else 0).
      { destruct CB as (ND & Hlt & _). destruct Bp as (k2 & E2 & Es2).
        destruct (Nat.eqb_spec p j1) as [->|Hp].
        - assert (sp = s) by congruence. subst. apply basis_refl.
        - apply basis_neq. intros ->. apply Hp.
          assert (k2 = k). { eapply gs_inj; eauto. apply Hlt. eapply nth_error_In; eauto. }
          subst. apply (proj1 (NoDup_nth_error statelst) ND); [|congruence]. apply nth_error_Some. congruence. }
      rewrite HB. destruct (eq2 (p, q) (j1, j1)) as [Q|Q].
      + injection Q as -> ->. rewrite !Nat.eqb_refl. ring.
      + destruct (Nat.eqb_spec j1 q), (Nat.eqb_spec p j1), (Nat.eqb j1 p); try ring; exfalso; apply Q; congruence.
    - destruct (occ_at i s) eqn:Eo.
      2: { exists []. split; auto. intros p q sp Bp Lq sq Bq.
           rewrite !hop_sign by (try rewrite (Lb _ _ Bp); try rewrite (Lb _ _ Bq); lia). rewrite Eo. cbn [andb negb rsum].
           destruct (Nat.eqb j1 q), (Nat.eqb j1 p), herm_hs; cbn [andb]; ring. }
      rewrite (nth_error_occ s j) by lia. destruct (occ_at j s) eqn:Eo2.
      { exists []. split; auto. intros p q sp Bp Lq sq Bq.
           rewrite !hop_sign by (try rewrite (Lb _ _ Bp); try rewrite (Lb _ _ Bq); lia). rewrite Eo, Eo2. cbn [andb negb rsum].
           destruct (Nat.eqb j1 q), (Nat.eqb j1 p), herm_hs; cbn [andb]; ring. }
      set (u := set_nth j true (set_nth i false s)).
      assert (Lu : length u = n) by (unfold u; rewrite !set_nth_length; auto).
      assert (Sg : forall t, length t = n -> wop K [(true, j); (false, i)] t s =
         sgn C (charge_of (firstn i s) + charge_of (firstn j s)) * pm K (j <? i)%nat * basis C u t).
      { intros t Lt. rewrite hop_sign by lia. rewrite Eo, Eo2. reflexivity. }
      destruct (gi_cases _ _ _ RC u Lu) as [(k0 & Gi & Hk0 & Gs)|(Gi & N)]; rewrite Gi.
      + destruct (index_of_in statelst k0) as (pos & I & Lpos & Epos).
        { destruct CB as (_ & _ & Cl). apply (Cl k k0 s u); auto. exists i, j. repeat split; auto.
          apply in_map_iff. exists ((i, j), h). auto. }
        rewrite I. eexists. split; [reflexivity|]. intros p q sp Bp Lq sq Bq.
        rewrite (Sg sp), (Sg sq) by eauto.
        rewrite (block_hit _ _ _ _ _ u k0 pos p sp RC CB Lu Gi I Bp), (block_hit _ _ _ _ _ u k0 pos q sq RC CB Lu Gi I Bq).
        set (sg := sgn C (charge_of (firstn i s) + charge_of (firstn j s)) * pm K (j <? i)%nat).
        cbn [rsum fst snd]. destruct (eq2 (p, q) (pos, j1)) as [Q|Q].
        * injection Q as -> ->. rewrite !Nat.eqb_refl.
          destruct herm_hs; cbn [andb negb rsum fst snd].
          -- destruct (eq2 (pos, j1) (j1, pos)) as [Q|Q].
             ++ injection Q as ->. rewrite !Nat.eqb_refl. ring.
             ++ destruct (Nat.eqb_spec j1 pos); try ring. exfalso; apply Q; congruence.
          -- destruct (Nat.eqb j1 pos); ring.
        * assert (Z1 : (if Nat.eqb j1 q then h * (sg * (if Nat.eqb p pos then 1 else 0)) else 0) = 0).
          { destruct (Nat.eqb_spec j1 q), (Nat.eqb_spec p pos); try ring. exfalso; apply Q; congruence. }
          rewrite Z1. destruct herm_hs; cbn [andb negb rsum fst snd].
          -- destruct (eq2 (p, q) (j1, pos)) as [Q2|Q2].
             ++ injection Q2 as -> ->. rewrite !Nat.eqb_refl. ring.
             ++ destruct (Nat.eqb_spec j1 p), (Nat.eqb_spec q pos); try ring. exfalso; apply Q2; congruence.
          -- destruct (Nat.eqb j1 p); ring.
      + exists []. split; auto. intros p q sp Bp Lq sq Bq. rewrite (Sg sp), (Sg sq) by eauto.
        rewrite (block_miss _ _ _ _ _ u p sp RC CB Lu Gi Bp), (block_miss _ _ _ _ _ u q sq RC CB Lu Gi Bq).
        cbn [rsum]. destruct (Nat.eqb j1 q), (Nat.eqb j1 p), herm_hs; cbn [andb negb]; ring. }
  destruct G as (us & E & H). unfold construct_ham_hopping. rewrite E. eexists. split; [reflexivity|].
  intros p q sp sq Bp Bq. rewrite (H ham_ p q sp sq Bp Bq). f_equal. rewrite osum_mel.
  assert (Lb : forall p sp, block_state si statelst p sp -> length sp = n).
  { intros p' sp' (k2 & E2 & E2'). apply (gs_len _ _ _ RC k2); auto. apply CB. eapply nth_error_In; eauto. }
  apply rsum_ext. intros [[i j] h] He. destruct (HK _ _ _ He) as (Hi & Hj). unfold hop_op.
  unfold mel at 1. unfold oplus. f_equal. destruct (herm_hs && negb (Nat.eqb i j)); [|reflexivity].
  unfold oscale. f_equal. change (wop K [(true, j); (false, i)] sq sp = wop K [(true, i); (false, j)] sp sq).
  apply wop_adjoint. { rewrite (Lb _ _ Bp), (Lb _ _ Bq). auto. }
  rewrite (Lb _ _ Bp). intros b x [Q|[Q|[]]]; injection Q as <- <-; lia.
Qed.

(** charge blocks: never an exception *)
Theorem C14_charge_block : forall n name ops si herm_hs hsingle c ham_, reachable_si n name ops si ->
  (forall i j h, In ((i, j), h) hsingle -> (i < n /\ j < n)%nat) -> (c <= n)%nat ->
  exists blk ham, get_lst si c None None = Some blk /\
    construct_ham_hopping K si herm_hs hsingle blk ham_ = Some ham /\
    forall p q sp sq, block_state si blk p sp -> block_state si blk q sq ->
      ham (p, q) = ham_ (p, q) + mel C (osum C (hop_op herm_hs) hsingle) sp sq.
Proof.
  intros n name ops si herm_hs hsingle c ham_ RS HK Hc.
  destruct (charge_block_closed n name ops si c RS Hc) as (blk & E & (ND & Lt & Cl) & _). exists blk.
  destruct (C14_hopping_block n name ops si herm_hs hsingle blk ham_ RS HK) as (ham & E' & H).
  - split; auto. split; auto. intros k k' s s' Hk Hk' Es Es' M. apply (Cl k k' s s' Hk Hk' Es Es').
    apply (moves_charge (map fst hsingle) n); auto.
    + intros i j Hin. apply in_map_iff in Hin. destruct Hin as ([[i' j'] h] & Q & Hin). simpl in Q. injection Q as -> ->. eauto.
    + apply (gs_len _ _ _ (reachable_correct _ _ _ _ RS) k); auto.
  - exists ham. auto.
Qed.

(** Hermitian when the diagonal entries are real *)
Lemma hop_adj : forall n i j h (t s : list bool), (i < n)%nat -> (j < n)%nat -> length t = n -> length s = n ->
  mel C (oscale C h (ocomp C (cre C j) (ann C i))) t s = conj (mel C (oscale C (conj h) (ocomp C (cre C i) (ann C j))) s t).
Proof.
  intros n i j h t s Hi Hj Lt Ls. unfold mel, oscale. rewrite conj_mul, conj_conj. f_equal.
  change (wop K [(true, j); (false, i)] t s = conj (wop K [(true, i); (false, j)] s t)).
  rewrite conj_wop; [|lia|].
  - apply wop_adjoint; [lia|]. intros b x [Q|[Q|[]]]; injection Q as <- <-; lia.
  - intros b x [Q|[Q|[]]]; injection Q as <- <-; lia.
Qed.

Theorem C14_hermitian : forall n name ops si hsingle statelst ham, reachable_si n name ops si ->
  (forall i j h, In ((i, j), h) hsingle -> (i < n /\ j < n)%nat /\ (i = j -> conj h = h)) ->
  closed_block si (moves (map fst hsingle)) statelst ->
  construct_ham_hopping K si true hsingle statelst zeros = Some ham ->
  forall p q, (p < length statelst)%nat -> (q < length statelst)%nat -> ham (p, q) = conj (ham (q, p)).
Proof.
  intros n name ops si hsingle statelst ham RS HK CB E p q Hp Hq.
  pose proof (reachable_correct _ _ _ _ RS) as RC.
  destruct (C14_hopping_block n name ops si true hsingle statelst zeros RS) as (ham' & E' & H); auto.
  { intros i j h Hin. apply (HK i j h Hin). }
  rewrite E' in E. injection E as <-.
  assert (B : forall x, (x < length statelst)%nat -> exists sx, block_state si statelst x sx /\ length sx = n).
  { intros x Hx. destruct (nth_error statelst x) as [k|] eqn:Ek; [|apply nth_error_None in Ek; lia].
    destruct (gs_ex _ _ _ RC k) as (s & Es & Ls). { apply CB. eapply nth_error_In; eauto. }
    exists s. split; auto. exists k. auto. }
  destruct (B p Hp) as (sp & Bp & Lp). destruct (B q Hq) as (sq & Bq & Lq).
  rewrite (H p q sp sq), (H q p sq sp) by auto. unfold zeros. rewrite conj_add, conj_0. f_equal.
  rewrite !osum_mel, rsum_conj. apply rsum_ext. intros [[i j] h] He.
  destruct (HK _ _ _ He) as ((Hi & Hj) & Hd). unfold hop_op. cbn [andb].
  unfold mel at 1 2. unfold oplus. rewrite conj_add.
  pose proof (hop_adj n i j h sp sq Hi Hj Lp Lq) as A1.
  destruct (Nat.eqb_spec i j) as [->|Hne]; cbn [negb].
  - rewrite (Hd eq_refl) in A1. unfold mel in A1. rewrite A1. unfold ozero. rewrite conj_0. ring.
  - pose proof (hop_adj n j i (conj h) sp sq Hj Hi Lp Lq) as A2. rewrite conj_conj in A2.
    unfold mel in A1, A2. rewrite A1, A2. ring.
Qed.

(** *** C15 *)
(** U d_m^dagger d_n^dagger d_k d_l *)
Definition two_body (U : C) (m n k l : nat) : op C :=
  oscale C U (ocomp C (cre C m) (ocomp C (cre C n) (ocomp C (ann C k) (ann C l)))).
(** the entries for which the code adds the Hermitian conjugate: with herm_c, not a density-density
    key (m = l and n = k), and not (m_less_n and l > k) *)
Definition wants_conj (herm_c m_less_n : bool) (m n k l : nat) : bool :=
  herm_c && negb (Nat.eqb m l && Nat.eqb n k) && negb (m_less_n && Nat.ltb k l).
Definition coul_op (herm_c m_less_n : bool) (e : (nat * nat * nat * nat) * C) : op C :=
  let '((m, n, k, l), U) := e in
  oplus C (two_body U m n k l)
    (if wants_conj herm_c m_less_n m n k l then two_body (conj U) l k n m else ozero C).

Definition scatters (keys : list (nat * nat * nat * nat)) (s s' : list bool) : Prop :=
  exists m n k l, In (m, n, k, l) keys /\ k <> l /\ m <> n /\ occ_at k s = true /\ occ_at l s = true /\
    occ_at m (put l false (put k false s)) = false /\ occ_at n (put l false (put k false s)) = false /\
    s' = put n true (put m true (put l false (put k false s))).

Lemma scatters_charge : forall keys N s s', (forall m n k l, In (m, n, k, l) keys -> (m < N /\ n < N /\ k < N /\ l < N)%nat) ->
  length s = N -> scatters keys s s' -> same_charge s s'.
Proof.
  intros keys N s s' HK Ls (m & n & k & l & Hin & Hne & Hne' & Ek & El & Em & En & ->).
  destruct (HK _ _ _ _ Hin) as (Hm & Hn & Hk & Hl).
  unfold same_charge. rewrite <- !ones_electrons.
  assert (E1 : ones (put n true (put m true (put l false (put k false s)))) = S (S (ones (put l false (put k false s))))).
  { rewrite ones_put_true; [|rewrite !put_length; lia|rewrite occ_put_other; auto].
    rewrite ones_put_true; auto. rewrite !put_length; lia. }
  assert (E2 : S (ones (put l false (put k false s))) = ones (put k false s)).
  { apply ones_put_false; [rewrite put_length; lia|]. rewrite occ_put_other; auto. }
  assert (E3 : S (ones (put k false s)) = ones s) by (apply ones_put_false; auto; lia). rewrite <- (ones_electrons (put n true _)). lia.
Qed.

Theorem C15_coulomb_block : forall N name ops si herm_c m_less_n coulomb statelst ham_, reachable_si N name ops si ->
  (forall m n k l U, In ((m, n, k, l), U) coulomb -> (m < N /\ n < N /\ k < N /\ l < N)%nat) ->
  closed_block si (scatters (map fst coulomb)) statelst ->
  exists ham, construct_ham_coulomb K si herm_c m_less_n coulomb statelst ham_ = Some ham /\
    forall p q sp sq, block_state si statelst p sp -> block_state si statelst q sq ->
      ham (p, q) = ham_ (p, q) + mel C (osum C (coul_op herm_c m_less_n) coulomb) sp sq.
Proof.
  intros N name ops si herm_c m_less_n coulomb statelst ham_ RS HK CB. pose proof (reachable_correct _ _ _ _ RS) as RC.
  pose (wd := fun m n k l : nat => [(true, m); (true, n); (false, k); (false, l)]).
  pose (DD := fun (e : (nat * nat * nat * nat) * C) sp sq => let '((m, n, k, l), U) := e in U * wop K (wd m n k l) sp sq).
  pose (EE := fun (e : (nat * nat * nat * nat) * C) sp sq => let '((m, n, k, l), U) := e in
                 if wants_conj herm_c m_less_n m n k l then conj U * wop K (wd m n k l) sq sp else 0).
  assert (Lb : forall p sp, block_state si statelst p sp -> length sp = N).
  { intros p sp (k2 & E2 & E2'). apply (gs_len _ _ _ RC k2); auto. apply CB. eapply nth_error_In; eauto. }
  assert (G : exists us, block_loop K si statelst (coul_step K si herm_c m_less_n statelst) coulomb = Some us /\
    forall ham_ p q sp sq, block_state si statelst p sp -> block_state si statelst q sq ->
      run_updates eq2 us ham_ (p, q) = ham_ (p, q) + rsum (fun e => DD e sp sq + EE e sp sq) coulomb).
  { apply (block_generic _ N _ si (scatters (map fst coulomb)) statelst _ coulomb DD EE (fun e => In e coulomb) RC CB); auto.
    intros j1 k0 s [[[[m n] k] l] U] Ek Es He. destruct (HK _ _ _ _ _ He) as (Hm & Hn & Hk & Hl).
    assert (Ink : In k0 statelst) by (eapply nth_error_In; eauto).
    assert (Lk : (k0 < si_nmany si)%nat) by (apply CB; auto).
    pose proof (gs_len _ _ _ RC _ _ Lk Es) as Ls.
    assert (NIL : (forall t, length t = N -> wop K (wd m n k l) t s = 0) ->
       exists us, Some [] = Some us /\ forall p q sp, block_state si statelst p sp -> (q < length statelst)%nat ->
         forall sq, block_state si statelst q sq ->
         rsum (fun u => if eq2 (p, q) (fst u) then snd u else 0) us =
         (if Nat.eqb j1 q then DD ((m, n, k, l), U) sp s else 0) + (if Nat.eqb j1 p then EE ((m, n, k, l), U) s sq else 0)).
    { intros Z. exists []. split; auto. intros p q sp Bp Lq sq Bq. cbn [rsum]. unfold DD, EE.
      rewrite (Z sp), (Z sq) by eauto. destruct (Nat.eqb j1 q), (Nat.eqb j1 p), (wants_conj herm_c m_less_n m n k l); ring. }
    unfold coul_step. rewrite (nth_error_occ s k), (nth_error_occ s l) by lia.
    destruct (Nat.eq_dec k l) as [->|Hkl].
    { assert (Z : forall t, length t = N -> wop K (wd m n l l) t s = 0).
      { intros t Lt. unfold wd. change [(true, m); (true, n); (false, l); (false, l)] with
          ([(true, m); (true, n)] ++ [(false, l); (false, l)]). apply same_ann; lia. }
      rewrite Nat.eqb_refl. destruct (occ_at l s); apply NIL; auto. }
    set (s1 := put l false (put k false s)).
    assert (L1 : length s1 = N) by (unfold s1; rewrite !put_length; auto).
    assert (W1 : forall t, length t = N -> wop K (wd m n k l) t s =
      if occ_at k s && occ_at l s
      then sgn C (charge_of (firstn k s) + charge_of (firstn l s)) * pm K (negb (l <? k)%nat) * wop K [(true, m); (true, n)] t s1 else 0).
    { intros t Lt. unfold wd. change [(true, m); (true, n); (false, k); (false, l)] with
          ([(true, m); (true, n)] ++ [(false, k); (false, l)]). apply pair_ann; lia. }
    destruct (occ_at k s) eqn:Ok; [|apply NIL; intros; rewrite W1; auto].
    destruct (occ_at l s) eqn:Ol; [|apply NIL; intros; rewrite W1; auto].
    cbn [andb] in W1. rewrite (proj2 (Nat.eqb_neq k l)) by auto.
    change (set_nth l false (set_nth k false s)) with s1.
    rewrite (nth_error_occ s1 m), (nth_error_occ s1 n) by lia.
    destruct (Nat.eq_dec m n) as [->|Hmn].
    { assert (Z : forall t, length t = N -> wop K (wd n n k l) t s = 0).
      { intros t Lt. rewrite W1 by auto. change [(true, n); (true, n)] with ([] ++ [(true, n); (true, n)]). rewrite same_cre by lia. ring. }
      rewrite Nat.eqb_refl. destruct (occ_at n s1); apply NIL; auto. }
    set (u := put n true (put m true s1)).
    assert (Lu : length u = N) by (unfold u; rewrite !put_length; auto).
    assert (W2 : forall t, length t = N -> wop K [(true, m); (true, n)] t s1 =
      if negb (occ_at m s1) && negb (occ_at n s1)
      then sgn C (charge_of (firstn n s1) + charge_of (firstn m s1)) * pm K (m <? n)%nat * basis C u t else 0).
    { intros t Lt. apply (pair_cre K []); lia. }
    destruct (occ_at m s1) eqn:Om; [apply NIL; intros; rewrite W1, W2 by auto; cbn [negb andb]; ring|].
    destruct (occ_at n s1) eqn:On; [apply NIL; intros; rewrite W1, W2 by auto; cbn [negb andb]; ring|].
    cbn [negb andb] in W2. rewrite (proj2 (Nat.eqb_neq m n)) by auto.
    change (set_nth n true (set_nth m true s1)) with u.
    set (sg := sgn C (charge_of (firstn k s) + charge_of (firstn l s)) * pm K (negb (l <? k)%nat)
                * sgn C (charge_of (firstn n s1) + charge_of (firstn m s1)) * pm K (m <? n)%nat).
    assert (W : forall t, length t = N -> wop K (wd m n k l) t s = sg * basis C u t).
    { intros t Lt. rewrite W1, W2 by auto. unfold sg. ring. }
    destruct (gi_cases _ _ _ RC u Lu) as [(k1 & Gi & Hk1 & Gs)|(Gi & NN)]; rewrite Gi.
    2: { exists []. split; auto. intros p q sp Bp Lq sq Bq. unfold DD, EE. rewrite (W sp), (W sq) by eauto.
         rewrite (block_miss _ _ _ _ _ u p sp RC CB Lu Gi Bp), (block_miss _ _ _ _ _ u q sq RC CB Lu Gi Bq).
         cbn [rsum]. destruct (Nat.eqb j1 q), (Nat.eqb j1 p), (wants_conj herm_c m_less_n m n k l); ring. }
    destruct (index_of_in statelst k1) as (pos & I & Lpos & Epos).
    { destruct CB as (_ & _ & Cl). apply (Cl k0 k1 s u); auto. exists m, n, k, l. repeat split; auto.
      apply in_map_iff. exists ((m, n, k, l), U). auto. }
    rewrite I. eexists. split; [reflexivity|]. intros p q sp Bp Lq sq Bq. unfold DD, EE.
    rewrite (W sp), (W sq) by eauto.
    rewrite (block_hit _ _ _ _ _ u k1 pos p sp RC CB Lu Gi I Bp), (block_hit _ _ _ _ _ u k1 pos q sq RC CB Lu Gi I Bq).
    rewrite <- (negb_andb (Nat.eqb m l) (Nat.eqb n k)). fold (wants_conj herm_c m_less_n m n k l). fold sg.
    set (w := wants_conj herm_c m_less_n m n k l).
    cbn [rsum fst snd]. destruct (eq2 (p, q) (pos, j1)) as [Q|Q].
    - injection Q as -> ->. rewrite !Nat.eqb_refl.
      destruct w; cbn [rsum fst snd].
      + destruct (eq2 (pos, j1) (j1, pos)) as [Q|Q].
        * injection Q as ->. rewrite !Nat.eqb_refl. ring.
        * destruct (Nat.eqb_spec j1 pos); try ring. exfalso; apply Q; congruence.
      + destruct (Nat.eqb j1 pos); ring.
    - assert (Z1 : (if Nat.eqb j1 q then U * (sg * (if Nat.eqb p pos then 1 else 0)) else 0) = 0).
      { destruct (Nat.eqb_spec j1 q), (Nat.eqb_spec p pos); try ring. exfalso; apply Q; congruence. }
      rewrite Z1. destruct w; cbn [rsum fst snd].
      + destruct (eq2 (p, q) (j1, pos)) as [Q2|Q2].
        * injection Q2 as -> ->. rewrite !Nat.eqb_refl. ring.
        * destruct (Nat.eqb_spec j1 p), (Nat.eqb_spec q pos); try ring. exfalso; apply Q2; congruence.
      + destruct (Nat.eqb j1 p); ring. }
  destruct G as (us & E & H). unfold construct_ham_coulomb. rewrite E. eexists. split; [reflexivity|].
  intros p q sp sq Bp Bq. rewrite (H ham_ p q sp sq Bp Bq). f_equal. rewrite osum_mel.
  apply rsum_ext. intros [[[[m n] k] l] U] He. destruct (HK _ _ _ _ _ He) as (Hm & Hn & Hk & Hl). unfold coul_op.
  unfold mel at 1. unfold oplus. f_equal. unfold EE. destruct (wants_conj herm_c m_less_n m n k l); [|reflexivity].
  unfold two_body, oscale. f_equal. change (wop K (wd m n k l) sq sp = wop K (wadj (wd m n k l)) sp sq).
  apply wop_adjoint. { rewrite (Lb _ _ Bp), (Lb _ _ Bq). auto. }
  rewrite (Lb _ _ Bp). unfold wd. intros b x [Q|[Q|[Q|[Q|[]]]]]; injection Q as <- <-; lia.
Qed.

Theorem C15_charge_block : forall N name ops si herm_c m_less_n coulomb c ham_, reachable_si N name ops si ->
  (forall m n k l U, In ((m, n, k, l), U) coulomb -> (m < N /\ n < N /\ k < N /\ l < N)%nat) -> (c <= N)%nat ->
  exists blk ham, get_lst si c None None = Some blk /\
    construct_ham_coulomb K si herm_c m_less_n coulomb blk ham_ = Some ham /\
    forall p q sp sq, block_state si blk p sp -> block_state si blk q sq ->
      ham (p, q) = ham_ (p, q) + mel C (osum C (coul_op herm_c m_less_n) coulomb) sp sq.
Proof.
  intros N name ops si herm_c m_less_n coulomb c ham_ RS HK Hc.
  destruct (charge_block_closed N name ops si c RS Hc) as (blk & E & (ND & Lt & Cl) & _). exists blk.
  destruct (C15_coulomb_block N name ops si herm_c m_less_n coulomb blk ham_ RS HK) as (ham & E' & H).
  - split; auto. split; auto. intros k k' s s' Hk Hk' Es Es' M. apply (Cl k k' s s' Hk Hk' Es Es').
    apply (scatters_charge (map fst coulomb) N); auto.
    + intros m n k1 l Hin. apply in_map_iff in Hin. destruct Hin as ([[[[m' n'] k2] l'] U] & Q & Hin).
      simpl in Q. injection Q as -> -> -> ->. eauto.
    + apply (gs_len _ _ _ (reachable_correct _ _ _ _ RS) k); auto.
  - exists ham. auto.
Qed.

(** Hermitian: the entries that do not get a conjugate term must be closed under
    (m,n,k,l),U -> (l,k,n,m),conj U *)
Definition swap_key (e : (nat * nat * nat * nat) * C) : (nat * nat * nat * nat) * C :=
  let '((m, n, k, l), U) := e in ((l, k, n, m), conj U).
Definition plain (herm_c m_less_n : bool) (e : (nat * nat * nat * nat) * C) : bool :=
  let '((m, n, k, l), U) := e in negb (wants_conj herm_c m_less_n m n k l).

Lemma two_body_adj : forall N m n k l U (t s : list bool), (m < N)%nat -> (n < N)%nat -> (k < N)%nat -> (l < N)%nat ->
  length t = N -> length s = N ->
  mel C (two_body U m n k l) t s = conj (mel C (two_body (conj U) l k n m) s t).
Proof.
  intros N m n k l U t s Hm Hn Hk Hl Lt Ls. unfold mel, two_body, oscale. rewrite conj_mul, conj_conj. f_equal.
  change (wop K [(true, m); (true, n); (false, k); (false, l)] t s = conj (wop K [(true, l); (true, k); (false, n); (false, m)] s t)).
  rewrite conj_wop; [|lia|].
  - apply wop_adjoint; [lia|]. intros b x [Q|[Q|[Q|[Q|[]]]]]; injection Q as <- <-; lia.
  - intros b x [Q|[Q|[Q|[Q|[]]]]]; injection Q as <- <-; lia.
Qed.

Theorem C15_hermitian : forall N name ops si herm_c m_less_n coulomb statelst ham, reachable_si N name ops si ->
  (forall m n k l U, In ((m, n, k, l), U) coulomb -> (m < N /\ n < N /\ k < N /\ l < N)%nat) ->
  Permutation (map swap_key (filter (plain herm_c m_less_n) coulomb)) (filter (plain herm_c m_less_n) coulomb) ->
  closed_block si (scatters (map fst coulomb)) statelst ->
  construct_ham_coulomb K si herm_c m_less_n coulomb statelst zeros = Some ham ->
  forall p q, (p < length statelst)%nat -> (q < length statelst)%nat -> ham (p, q) = conj (ham (q, p)).
Proof.
  intros N name ops si herm_c m_less_n coulomb statelst ham RS HK PE CB E p q Hp Hq.
  pose proof (reachable_correct _ _ _ _ RS) as RC.
  destruct (C15_coulomb_block N name ops si herm_c m_less_n coulomb statelst zeros RS HK CB) as (ham' & E' & H); auto.
  rewrite E' in E. injection E as <-.
  assert (B : forall x, (x < length statelst)%nat -> exists sx, block_state si statelst x sx /\ length sx = N).
  { intros x Hx. destruct (nth_error statelst x) as [k|] eqn:Ek; [|apply nth_error_None in Ek; lia].
    destruct (gs_ex _ _ _ RC k) as (s & Es & Ls). { apply CB. eapply nth_error_In; eauto. }
    exists s. split; auto. exists k. auto. }
  destruct (B p Hp) as (sp & Bp & Lp). destruct (B q Hq) as (sq & Bq & Lq).
  rewrite (H p q sp sq), (H q p sq sp) by auto. unfold zeros. rewrite conj_add, conj_0. f_equal.
  rewrite !osum_mel, rsum_conj.
  pose (T := fun e t s => let '((m, n, k, l), U) := (e : (nat * nat * nat * nat) * C) in mel C (two_body U m n k l) t s).
  assert (TA : forall e, In e coulomb -> T e sp sq = conj (T (swap_key e) sq sp) /\ T (swap_key e) sp sq = conj (T e sq sp)).
  { intros [[[[m n] k] l] U] He. destruct (HK _ _ _ _ _ He) as (Hm & Hn & Hk & Hl). unfold T, swap_key. split.
    - now apply (two_body_adj N).
    - rewrite (two_body_adj N l k n m (conj U) sp sq) by auto. now rewrite conj_conj. }
  pose (pl := plain herm_c m_less_n).
  assert (S1 : forall t s, rsum (fun e => mel C (coul_op herm_c m_less_n e) t s) coulomb =
     rsum (fun e => T e t s) (filter pl coulomb) +
     rsum (fun e => T e t s + T (swap_key e) t s) (filter (fun e => negb (pl e)) coulomb)).
  { intros t s. rewrite !rsum_filter, <- rsum_plus. apply rsum_ext. intros [[[[m n] k] l] U] He.
    unfold pl, plain, T, swap_key, coul_op. unfold mel at 1. unfold oplus.
    destruct (wants_conj herm_c m_less_n m n k l); cbn [negb].
    - unfold mel. ring.
    - unfold ozero, mel. ring. }
  rewrite <- rsum_conj, !S1, conj_add, !rsum_conj. f_equal.
  - transitivity (rsum (fun e => T e sp sq) (map swap_key (filter pl coulomb))).
    + symmetry. now apply rsum_perm.
    + rewrite rsum_map. apply rsum_ext. intros e He. apply filter_In in He. now apply TA.
  - apply rsum_ext. intros e He. apply filter_In in He. destruct (TA e) as (A1 & A2); [tauto|].
    rewrite conj_add, A1, A2. ring.
Qed.

(** *** C16 *)
(** V_ij d_i^dagger d_j *)
Definition phonon_op (velph : list ((nat * nat * nat) * C)) (b : nat) : op C :=
  osum C (fun e => let '((b', i, j), v) := e in
                 if Nat.eqb b' b then oscale C v (ocomp C (cre C i) (ann C j)) else ozero C) velph.

Theorem C16_phonon : forall n name ops si nbaths velph Vbbp_, reachable_si n name ops si ->
  (forall b i j v, In ((b, i, j), v) velph -> (b < nbaths /\ i < n /\ j < n)%nat) ->
  exists Vbbp, elph_construct_Vbbp K si nbaths velph Vbbp_ = Some Vbbp /\
    forall b k' k s' s, (k' < si_nmany si)%nat -> (k < si_nmany si)%nat ->
      get_state si k' = Some s' -> get_state si k = Some s ->
      Vbbp (b, k', k) = Vbbp_ (b, k', k) + mel C (phonon_op velph b) s' s.
Proof.
  intros n name ops si nbaths velph Vbbp_ RS HT. pose proof (reachable_correct _ _ _ _ RS) as RC.
  pose (us := fun j1 (e : (nat * nat * nat) * C) => match get_state si j1 with None => [] | Some st =>
                 match vbbp_step K si nbaths j1 st e with Some u => u | None => [] end end).
  assert (ST : forall j1 s e, (j1 < si_nmany si)%nat -> get_state si j1 = Some s -> In e velph ->
     vbbp_step K si nbaths j1 s e = Some (us j1 e) /\
     forall l k' s', (k' < si_nmany si)%nat -> get_state si k' = Some s' -> forall k,
       rsum (fun u => if eq3 (l, k', k) (fst u) then snd u else 0) (us j1 e) =
       if Nat.eqb j1 k then (let '((l', i, j), t) := e in
          if Nat.eqb l' l then t * wop K [(true, i); (false, j)] s' s else 0) else 0).
  { intros j1 s [[[l0 i] j] t] Hj Es He. destruct (HT _ _ _ _ He) as (Hl & Hi & Hjn).
    pose proof (gs_len _ _ _ RC _ _ Hj Es) as Ls.
    assert (LT : forall a b, (a < b)%nat -> Nat.ltb a b = true) by (intros; now apply Nat.ltb_lt).
    assert (ONE : forall v ind, (ind < si_nmany si)%nat ->
       (forall k' s', (k' < si_nmany si)%nat -> get_state si k' = Some s' ->
          t * wop K [(true, i); (false, j)] s' s = v * (if Nat.eqb k' ind then 1 else 0)) ->
       forall l k' s', (k' < si_nmany si)%nat -> get_state si k' = Some s' -> forall k,
       rsum (fun u => if eq3 (l, k', k) (fst u) then snd u else 0) [((l0, ind, j1), v)] =
       if Nat.eqb j1 k then (if Nat.eqb l0 l then t * wop K [(true, i); (false, j)] s' s else 0) else 0).
    { intros v ind Hind Hv l k' s' Hk' Es' k. rewrite (Hv k' s') by auto. cbn [rsum fst snd].
      destruct (eq3 (l, k', k) (l0, ind, j1)) as [E|E].
      - injection E as -> -> ->. rewrite !Nat.eqb_refl. ring.
      - destruct (Nat.eqb_spec j1 k), (Nat.eqb_spec l0 l), (Nat.eqb_spec k' ind); try ring. congruence. }
    assert (NIL : (forall s', length s' = n -> wop K [(true, i); (false, j)] s' s = 0) ->
       forall l k' s', (k' < si_nmany si)%nat -> get_state si k' = Some s' -> forall k,
       rsum (fun u => if eq3 (l, k', k) (fst u) then snd u else 0) [] =
       if Nat.eqb j1 k then (if Nat.eqb l0 l then t * wop K [(true, i); (false, j)] s' s else 0) else 0).
    { intros Z l k' s' Hk' Es' k. rewrite Z by (eapply gs_len; eauto). cbn [rsum].
      destruct (Nat.eqb j1 k), (Nat.eqb l0 l); ring. }
    unfold us. rewrite Es. unfold vbbp_step. rewrite (nth_error_occ s j), (nth_error_occ s i) by lia.
    destruct (Nat.eqb_spec j i) as [->|Hne].
    - destruct (occ_at i s) eqn:Eo; cbn [forallb andb].
      + rewrite !LT by auto. cbn [andb]. split; [reflexivity|]. apply ONE; auto.
        intros k' s' Hk' Es'. rewrite num_sign by (rewrite ?(gs_len _ _ _ RC _ _ Hk' Es'); lia). rewrite Eo.
        rewrite (hit _ _ _ RC K s j1 k' s'); auto. eapply gs_ind; eauto.
      + split; [reflexivity|]. apply NIL. intros s' Ls'. rewrite num_sign by lia. now rewrite Eo.
    - assert (Sg : forall s', length s' = n -> wop K [(true, i); (false, j)] s' s =
        if occ_at j s && negb (occ_at i s)
        then sgn C (charge_of (firstn j s) + charge_of (firstn i s)) * pm K (i <? j)%nat * basis C (put i true (put j false s)) s' else 0).
      { intros s' Ls'. apply hop_sign; auto; lia. }
      destruct (occ_at j s) eqn:Ej; cbn [forallb].
      2: { split; [reflexivity|]. apply NIL. intros s' Ls'. now rewrite Sg. }
      destruct (occ_at i s) eqn:Ei; cbn [forallb].
      { split; [reflexivity|]. apply NIL. intros s' Ls'. now rewrite Sg. }
      cbn [andb negb] in Sg.
      set (u := put i true (put j false s)). assert (Lu : length u = n) by (unfold u; rewrite !put_length; auto).
      change (set_nth i true (set_nth j false s)) with u.
      destruct (gi_cases _ _ _ RC u Lu) as [(k0 & G & Hk0 & Gs)|(G & N)]; rewrite G; cbn [forallb].
      + rewrite !LT by auto. cbn [andb]. split; [reflexivity|]. apply ONE; auto.
        intros k' s' Hk' Es'. rewrite Sg by (eapply gs_len; eauto). fold u. rewrite (hit _ _ _ RC K u k0 k' s') by auto. ring.
      + split; [reflexivity|]. intros l k' s' Hk' Es' k. rewrite Sg by (eapply gs_len; eauto). fold u.
        rewrite (miss _ _ _ RC K u k' s') by auto. cbn [rsum]. destruct (Nat.eqb j1 k), (Nat.eqb l0 l); ring. }
  unfold elph_construct_Vbbp.
  rewrite (oconcat_some _ _ _ (fun j1 => flat_map (us j1) velph)).
  2: { intros j1 Hj. apply in_seq in Hj. destruct (gs_ex _ _ _ RC j1) as (s & Es & _); [lia|]. rewrite Es.
       apply oconcat_some. intros e He. apply (ST j1 s e); auto. lia. }
  eexists. split; [reflexivity|]. intros l k' k s' s Hk' Hk Es' Es.
  rewrite run_updates_sum. f_equal. rewrite rsum_flat_map.
  rewrite (rsum_ext C _ _ (fun j1 => rsum (fun e => rsum (fun u => if eq3 (l, k', k) (fst u) then snd u else 0) (us j1 e)) velph)).
  2: { intros j1 _. apply rsum_flat_map. }
  unfold phonon_op. rewrite osum_mel.
  apply (loop_column C) with (k := k); auto.
  intros j1 e He Hj. destruct (gs_ex _ _ _ RC j1 Hj) as (s1 & Es1 & _).
  rewrite (proj2 (ST j1 s1 e Hj Es1 He) l k' s' Hk' Es' k).
  destruct (Nat.eqb_spec j1 k) as [->|]; auto. assert (s1 = s) by congruence. subst s1.
  destruct e as [[[l0 i] j] t]. destruct (Nat.eqb l0 l); reflexivity.
Qed.

(** charge conservation; Hermitian when the couplings are: [velph] closed under (b,i,j),v -> (b,j,i),conj v *)
Definition swap_ph (e : (nat * nat * nat) * C) : (nat * nat * nat) * C :=
  let '((b, i, j), v) := e in ((b, j, i), conj v).

Theorem C16_charge_and_hermitian : forall n name ops si nbaths velph Vbbp, reachable_si n name ops si ->
  (forall b i j v, In ((b, i, j), v) velph -> (b < nbaths /\ i < n /\ j < n)%nat) ->
  elph_construct_Vbbp K si nbaths velph zeros = Some Vbbp ->
  (forall b k' k s' s, (k' < si_nmany si)%nat -> (k < si_nmany si)%nat ->
     get_state si k' = Some s' -> get_state si k = Some s -> Vbbp (b, k', k) <> 0 -> electrons s' = electrons s) /\
  (Permutation (map swap_ph velph) velph -> forall b k' k, (k' < si_nmany si)%nat -> (k < si_nmany si)%nat ->
     Vbbp (b, k', k) = conj (Vbbp (b, k, k'))).
Proof.
  intros n name ops si nbaths velph Vbbp RS HT E.
  pose proof (reachable_correct _ _ _ _ RS) as RC.
  destruct (C16_phonon n name ops si nbaths velph zeros RS HT) as (V & E' & H).
  rewrite E' in E. injection E as <-. split.
  - intros b k' k s' s Hk' Hk Es' Es Hne.
    pose proof (gs_len _ _ _ RC _ _ Hk' Es') as Ls'. pose proof (gs_len _ _ _ RC _ _ Hk Es) as Ls.
    rewrite <- !ones_electrons.
    destruct (Nat.eq_dec (ones s') (ones s)) as [|D]; auto. exfalso. apply Hne.
    rewrite (H b k' k s' s) by auto. unfold zeros, phonon_op. rewrite osum_mel, rsum_0. { ring. }
    intros [[[b0 i] j] v] He. destruct (HT _ _ _ _ He) as (Hb & Hi & Hj). destruct (Nat.eqb b0 b); [|reflexivity].
    unfold mel, oscale.
    assert (W1 : ocomp C (cre C i) (ann C j) (basis C s) s' = 0).
    { change (mel C (word C [(true, i); (false, j)]) s' s = 0). apply word_charge; [lia| |simpl; lia].
      intros x y [Q|[Q|[]]]; injection Q as <- <-; lia. }
    rewrite W1. ring.
  - intros PE b k' k Hk' Hk.
    destruct (gs_ex _ _ _ RC k' Hk') as (s' & Es' & Ls'). destruct (gs_ex _ _ _ RC k Hk) as (s & Es & Ls).
    rewrite (H b k' k s' s), (H b k k' s s') by auto. unfold zeros, phonon_op.
    rewrite conj_add, conj_0. f_equal. rewrite !osum_mel, rsum_conj.
    rewrite <- (rsum_perm C _ _ _ _ PE). rewrite rsum_map. apply rsum_ext.
    intros [[[b0 i] j] v] He. destruct (HT _ _ _ _ He) as (Hb & Hi & Hj). unfold swap_ph.
    destruct (Nat.eqb b0 b); [|unfold mel, ozero; symmetry; apply conj_0].
    rewrite (hop_adj n i j (conj v) s' s) by auto. now rewrite conj_conj.
Qed.
(** *** sz blocks (indexing 'sz' and 'ssq') *)
Definition spin_of (n i : nat) : Z := if Nat.ltb i (Nat.div2 n) then 1%Z else (-1)%Z.
Definition same_sector (s s' : list bool) : Prop := electrons s = electrons s' /\ up_minus_down s = up_minus_down s'.

Lemma ones_firstn_set : forall i h s, (i < length s)%nat -> occ_at i s = false ->
  ones (firstn h (put i true s)) = (ones (firstn h s) + (if Nat.ltb i h then 1 else 0))%nat.
Proof.
  unfold put, set_nth, occ_at. induction i; destruct s, h; simpl; intros H E; try lia.
  - rewrite E. lia.
  - rewrite IHi by (auto; lia). destruct b; unfold Nat.ltb; simpl; destruct h; simpl; lia.
Qed.
Lemma umd_ones : forall s, up_minus_down s = (2 * Z.of_nat (ones (firstn (Nat.div2 (length s)) s)) - Z.of_nat (ones s))%Z.
Proof.
  intros s. unfold up_minus_down. rewrite <- (ones_electrons (firstn _ _)), <- (ones_electrons (skipn _ _)).
  assert (H : forall h, (ones (firstn h s) + ones (skipn h s) = ones s)%nat).
  { induction s; intros [|h]; simpl; auto. rewrite <- (IHs h). destruct a; lia. }
  specialize (H (Nat.div2 (length s))). lia.
Qed.
Lemma umd_put_true : forall i s, (i < length s)%nat -> occ_at i s = false ->
  up_minus_down (put i true s) = (up_minus_down s + spin_of (length s) i)%Z.
Proof.
  intros i s H E. rewrite !umd_ones, put_length. rewrite ones_firstn_set by auto. rewrite ones_put_true by auto.
  unfold spin_of. destruct (Nat.ltb i (Nat.div2 (length s))); lia.
Qed.
Lemma umd_put_false : forall i s, (i < length s)%nat -> occ_at i s = true ->
  up_minus_down (put i false s) = (up_minus_down s - spin_of (length s) i)%Z.
Proof.
  intros i s H E. assert (Q : up_minus_down (put i true (put i false s)) = (up_minus_down (put i false s) + spin_of (length s) i)%Z).
  { rewrite umd_put_true, put_length; auto. - rewrite put_length; auto. - apply occ_put_same; auto. }
  rewrite put_put_same in Q. rewrite <- E, put_self in Q. lia.
Qed.

Lemma moves_sector : forall keys n s s', (forall i j, In (i, j) keys -> (i < n /\ j < n)%nat /\ spin_of n i = spin_of n j) ->
  length s = n -> moves keys s s' -> same_sector s s'.
Proof.
  intros keys n s s' HK Ls M. split.
  - eapply moves_charge; eauto. intros i j Hin. apply (HK i j Hin).
  - destruct M as (i & j & Hin & Hne & Ei & Ej & ->). destruct (HK _ _ Hin) as ((Hi & Hj) & Sp).
    rewrite umd_put_true by (rewrite ?put_length, ?occ_put_other by auto; auto; lia).
    rewrite umd_put_false by (auto; lia). rewrite put_length, Ls. lia.
Qed.
Lemma scatters_sector : forall keys N s s', (forall m n k l, In (m, n, k, l) keys -> (m < N /\ n < N /\ k < N /\ l < N)%nat /\
    (spin_of N m + spin_of N n = spin_of N k + spin_of N l)%Z) ->
  length s = N -> scatters keys s s' -> same_sector s s'.
Proof.
  intros keys N s s' HK Ls M. split.
  - eapply scatters_charge; eauto. intros m n k l Hin. apply (HK m n k l Hin).
  - destruct M as (m & n & k & l & Hin & Hne & Hne' & Ek & El & Em & En & ->).
    destruct (HK _ _ _ _ Hin) as ((Hm & Hn & Hk & Hl) & Sp).
    rewrite umd_put_true; [|rewrite !put_length; lia|rewrite occ_put_other; auto].
    rewrite umd_put_true; [|rewrite !put_length; lia|auto].
    rewrite umd_put_false; [|rewrite !put_length; lia|rewrite occ_put_other; auto].
    rewrite umd_put_false by (auto; lia). rewrite !put_length, Ls. lia.
Qed.

Lemma reachable_sz : forall n name ops si, reachable_si n name ops si -> (ix_of name n = IxSz \/ ix_of name n = IxSsq) ->
  si_nsingle si = n /\ si_ok si (not_removed (concat ops)) /\ sz_ok si.
Proof.
  intros n name ops si (Hn & Hk & E & H) Hix.
  assert (I : ops = [] -> si_nsingle si = n /\ si_ok si (not_removed (concat ops)) /\ sz_ok si).
  { intros ->. simpl in *. injection E as <-. split; [apply init_n|]. split; [|now apply si_init_sz_ok].
    eapply si_ok_ext; [|apply si_init_ok]. reflexivity. }
  destruct H as [H|[H|[(H & _)|H]]]; auto; try (destruct Hix; congruence).
  destruct (remove_history_ok n name ops (or_intror H) Hk) as (si' & E' & A & _ & B & D).
  assert (si' = si) by congruence. subst. auto.
Qed.

Lemma sz_block_closed : forall n name ops si c z, reachable_si n name ops si -> (ix_of name n = IxSz \/ ix_of name n = IxSsq) ->
  (c <= n)%nat -> In z (szrange c n) ->
  exists blk, get_lst si c (Some z) None = Some blk /\ closed_block si same_sector blk /\
    forall k, In k blk <-> ((k < si_nmany si)%nat /\ exists s, get_state si k = Some s /\ electrons s = c /\ up_minus_down s = z).
Proof.
  intros n name ops si c z RS Hix Hc Hz. pose proof (reachable_correct _ _ _ _ RS) as RC.
  destruct (reachable_sz n name ops si RS Hix) as (En & OK & (L & EL & HL & H)).
  assert (Hn : (1 <= n)%nat) by apply RS.
  rewrite En in *. destruct (H c Hc) as [HL2 H2].
  apply In_nth with (d := 0%Z) in Hz. destruct Hz as (k & Hk & E).
  destruct (H2 k Hk) as [(a & len & HS) HM]. exists (seq a len).
  assert (IN : forall p, In p (seq a len) <-> ((p < si_nmany si)%nat /\ exists s, get_state si p = Some s /\ electrons s = c /\ up_minus_down s = z)).
  { intros p. rewrite <- HS, HM, (ok_nmany _ _ OK).
    assert (GS : (p < length (si_i si))%nat -> get_state si p = Some (occ n (nth p (si_i si) 0%nat)) /\ length (occ n (nth p (si_i si) 0%nat)) = n).
    { intros Hp. split.
      - unfold get_state. rewrite (nth_error_of_nth _ 0%nat) by auto. simpl. unfold occ. now rewrite En.
      - apply occ_length; auto. rewrite <- En. apply (ok_i_in _ _ OK). now apply nth_In. }
    split.
    - intros (A & B & D). split; auto. destruct (GS A) as (G1 & G2). eexists. split; [exact G1|].
      rewrite electrons_charge, (umd_sz n) by auto. unfold occ_charge, occ_sz in *. split; auto. congruence.
    - intros (A & s & Es & B & D). split; auto. destruct (GS A) as (G1 & G2). rewrite G1 in Es. injection Es as <-.
      rewrite electrons_charge in B. rewrite (umd_sz n) in D by auto. unfold occ_charge, occ_sz. split; auto. congruence. }
  split; [|split; auto].
  - unfold get_lst. rewrite EL. rewrite (nth_error_of_nth _ []) by lia. rewrite En.
    rewrite <- E, sz_to_ind_szrange by auto. rewrite py_nth_nat.
    rewrite (nth_error_of_nth _ []) by lia. now rewrite HS.
  - split; [apply seq_NoDup|]. split; [intros p Hp; now apply IN|].
    intros p p' s s' Hp Hp' Es Es' (Q1 & Q2). apply IN. split; auto. exists s'. split; auto.
    apply IN in Hp. destruct Hp as (_ & s0 & E0 & Q0 & Q0'). assert (s0 = s) by congruence. subst.
    split; congruence.
Qed.

(** spin-conserving keys: never an exception on sz blocks *)
Theorem C14_sz_block : forall n name ops si herm_hs hsingle c z ham_, reachable_si n name ops si ->
  (ix_of name n = IxSz \/ ix_of name n = IxSsq) ->
  (forall i j h, In ((i, j), h) hsingle -> (i < n /\ j < n)%nat /\ spin_of n i = spin_of n j) ->
  (c <= n)%nat -> In z (szrange c n) ->
  exists blk ham, get_lst si c (Some z) None = Some blk /\
    construct_ham_hopping K si herm_hs hsingle blk ham_ = Some ham /\
    forall p q sp sq, block_state si blk p sp -> block_state si blk q sq ->
      ham (p, q) = ham_ (p, q) + mel C (osum C (hop_op herm_hs) hsingle) sp sq.
Proof.
  intros n name ops si herm_hs hsingle c z ham_ RS Hix HK Hc Hz.
  destruct (sz_block_closed n name ops si c z RS Hix Hc Hz) as (blk & E & (ND & Lt & Cl) & _). exists blk.
  destruct (C14_hopping_block n name ops si herm_hs hsingle blk ham_ RS) as (ham & E' & H).
  - intros i j h Hin. apply (HK i j h Hin).
  - split; auto. split; auto. intros k k' s s' Hk Hk' Es Es' M. apply (Cl k k' s s' Hk Hk' Es Es').
    apply (moves_sector (map fst hsingle) n); auto.
    + intros i j Hin. apply in_map_iff in Hin. destruct Hin as ([[i' j'] h] & Q & Hin). simpl in Q. injection Q as -> ->. eauto.
    + apply (gs_len _ _ _ (reachable_correct _ _ _ _ RS) k); auto.
  - exists ham. auto.
Qed.

Theorem C15_sz_block : forall N name ops si herm_c m_less_n coulomb c z ham_, reachable_si N name ops si ->
  (ix_of name N = IxSz \/ ix_of name N = IxSsq) ->
  (forall m n k l U, In ((m, n, k, l), U) coulomb -> (m < N /\ n < N /\ k < N /\ l < N)%nat /\
     (spin_of N m + spin_of N n = spin_of N k + spin_of N l)%Z) ->
  (c <= N)%nat -> In z (szrange c N) ->
  exists blk ham, get_lst si c (Some z) None = Some blk /\
    construct_ham_coulomb K si herm_c m_less_n coulomb blk ham_ = Some ham /\
    forall p q sp sq, block_state si blk p sp -> block_state si blk q sq ->
      ham (p, q) = ham_ (p, q) + mel C (osum C (coul_op herm_c m_less_n) coulomb) sp sq.
Proof.
  intros N name ops si herm_c m_less_n coulomb c z ham_ RS Hix HK Hc Hz.
  destruct (sz_block_closed N name ops si c z RS Hix Hc Hz) as (blk & E & (ND & Lt & Cl) & _). exists blk.
  destruct (C15_coulomb_block N name ops si herm_c m_less_n coulomb blk ham_ RS) as (ham & E' & H).
  - intros m n k l U Hin. apply (HK m n k l U Hin).
  - split; auto. split; auto. intros k k' s s' Hk Hk' Es Es' M. apply (Cl k k' s s' Hk Hk' Es Es').
    apply (scatters_sector (map fst coulomb) N); auto.
    + intros m n k1 l Hin. apply in_map_iff in Hin. destruct Hin as ([[[[m' n'] k2] l'] U] & Q & Hin).
      simpl in Q. injection Q as -> -> -> ->. eauto.
    + apply (gs_len _ _ _ (reachable_correct _ _ _ _ RS) k); auto.
  - exists ham. auto.
Qed.
End Operators.

Print Assumptions C13_tunnelling.
Print Assumptions C13_hermitian_and_selection.
Print Assumptions C14_hopping_block.
Print Assumptions C14_charge_block.
Print Assumptions C14_hermitian.
Print Assumptions C15_coulomb_block.
Print Assumptions C15_charge_block.
Print Assumptions C15_hermitian.
Print Assumptions C16_phonon.
Print Assumptions C16_charge_and_hermitian.
Print Assumptions C14_sz_block.
Print Assumptions C15_sz_block.

Definition ZC (a b : Z) : Cx ZRing := @mkC ZRing a b.
(** a spin-flip element makes the sz block raise ValueError (statelst.index, qdot.py 123) *)
Theorem C14_spin_flip_raises : exists blk,
  get_lst (si_init 2 "sz") 1 (Some 1%Z) None = Some blk /\
  construct_ham_hopping ZRing (si_init 2 "sz") true [((0, 1), ZC 1 0)] blk zeros = None.
Proof. eexists. split; vm_compute; reflexivity. Qed.

(** Non-vacuity *)
Example si_case : exists si, reachable_si 4 "sz" [[3]; [5; 0]] si.
Proof.
  eexists. split; [lia|]. split; [|split].
  - simpl. intros k H. repeat (destruct H as [<-|H]; [lia|]). destruct H.
  - vm_compute. reflexivity.
  - right. left. reflexivity.
Qed.
Example C13_case : exists Tba, construct_Tba ZRing (si_init 3 "charge") 2
    [((0, 1), ZC 3 4); ((1, 2), ZC 5 6)] zeros = Some Tba /\
  get_state (si_init 3 "charge") 7 = Some [true; true; true] /\
  get_state (si_init 3 "charge") 5 = Some [true; false; true] /\
  Tba (0, 7, 5) = ZC (-3) (-4) /\ Tba (0, 5, 7) = ZC (-3) 4.
Proof. eexists. split; [reflexivity|]. vm_compute. auto. Qed.
Example C14_case : exists blk ham, get_lst (si_init 4 "charge") 2 None None = Some blk /\
  construct_ham_hopping ZRing (si_init 4 "charge") true [((0, 2), ZC 3 4); ((1, 1), ZC 5 0)] blk zeros = Some ham /\
  get_state (si_init 4 "charge") (nth 2 blk 0) = Some [false; true; true; false] /\
  get_state (si_init 4 "charge") (nth 5 blk 0) = Some [true; true; false; false] /\
  ham (2, 5) = ZC (-3) (-4) /\ ham (5, 2) = ZC (-3) 4 /\ ham (2, 2) = ZC 5 0.
Proof. eexists. eexists. split; [vm_compute; reflexivity|]. split; [reflexivity|]. vm_compute. auto. Qed.
Example C15_case : exists blk ham, get_lst (si_init 4 "charge") 3 None None = Some blk /\
  construct_ham_coulomb ZRing (si_init 4 "charge") true true [((0, 2, 3, 2), ZC 3 4); ((0, 1, 1, 0), ZC 5 0)] blk zeros = Some ham /\
  get_state (si_init 4 "charge") (nth 0 blk 0) = Some [false; true; true; true] /\
  get_state (si_init 4 "charge") (nth 3 blk 0) = Some [true; true; true; false] /\
  ham (3, 0) = ZC (-3) (-4) /\ ham (0, 3) = ZC (-3) 4 /\ ham (3, 3) = ZC 5 0.
Proof. eexists. eexists. split; [vm_compute; reflexivity|]. split; [reflexivity|]. vm_compute. auto 10. Qed.
Example C16_case : exists V, elph_construct_Vbbp ZRing (si_init 3 "Lin") 1
    [((0, 0, 2), ZC 3 4); ((0, 2, 0), ZC 3 (-4))] zeros = Some V /\
  V (0, 6, 3) = ZC (-3) (-4) /\ V (0, 3, 6) = ZC (-3) 4.
Proof. eexists. split; [reflexivity|]. vm_compute. auto. Qed.
