(** Lemmas for Energies.v. *)
From Coq Require Import String List Arith Lia ZArith Bool QArith Permutation Sorted.
From Verif Require Import Base Bits Indexing IndexingProofs RemoveProofs Binom SsqProofs Qn Selection Energies.
Import ListNotations.
Open Scope nat_scope.
Local Notation length := List.length.

(** ** Loops of assignments *)
Section Write.
Variable A : Type.
Implicit Types (l : list A) (ws : list (nat * option A)).

Lemma write_all_some : forall ws l, (forall w, In w ws -> fst w < length l /\ exists v, snd w = Some v) ->
  exists l', write_all l ws = Some l' /\ length l' = length l.
Proof.
  induction ws as [|[k o] ws IH]; intros l H.
  - exists l. auto.
  - destruct (H (k, o)) as [Hk [v Hv]]; [now left|]. simpl in Hk, Hv. subst o.
    destruct (IH (set_nth k v l)) as (l' & E & Hl).
    + intros w Hw. rewrite set_nth_length. apply H. now right.
    + exists l'. rewrite set_nth_length in Hl. split; auto. unfold write_all in *. simpl.
      destruct (Nat.ltb_spec k (length l)); [exact E|lia].
Qed.

Lemma write_all_spec : forall ws l l', NoDup (map fst ws) -> write_all l ws = Some l' ->
  (forall k o, In (k, o) ws -> nth_error l' k = o) /\
  (forall k, ~ In k (map fst ws) -> nth_error l' k = nth_error l k).
Proof.
  induction ws as [|[k o] ws IH]; intros l l' ND E.
  - unfold write_all in E. simpl in E. injection E as <-. split; [intros ? ? []|auto].
  - inversion ND as [|? ? Hn ND']; subst. unfold write_all in E. simpl in E.
    assert (N : forall ws, fold_left (fun acc w =>
        match acc, snd w with
        | Some l, Some v => if fst w <? length l then Some (set_nth (fst w) v l) else None
        | _, _ => None end) ws (@None (list A)) = None) by (induction ws0; simpl; auto).
    destruct o as [v|]; [|rewrite N in E; discriminate].
    destruct (Nat.ltb_spec k (length l)) as [Hk|]; [|rewrite N in E; discriminate].
    destruct (IH _ _ ND' E) as [H1 H2]. split.
    + intros k' o' [Eq|Hin]; [|now apply H1]. injection Eq as <- <-.
      rewrite H2 by auto. rewrite nth_error_set_same by auto. reflexivity.
    + intros k' Hn'. rewrite H2 by (intros X; apply Hn'; now right).
      apply nth_error_set_other. intros ->. apply Hn'. now left.
Qed.
End Write.

(** The cells of Qn.v, written to once each. *)
Lemma cells_write : forall X A (cells : list X) pre blk m (zero : A) vals, cells_ok cells pre blk m ->
  (forall x, In x cells -> length (vals x) = length (blk x)) ->
  exists l, write_all (repeat zero m) (flat_map (fun x => block_writes (blk x) (vals x)) cells) = Some l /\
    length l = m /\
    forall x a k, In x cells -> nth_error (blk x) a = Some k -> nth_error l k = nth_error (vals x) a.
Proof.
  intros X A cells pre blk m zero vals CO HL.
  set (ws := flat_map (fun x => block_writes (blk x) (vals x)) cells).
  assert (Hin : forall w, In w ws -> exists x a, In x cells /\ a < length (blk x) /\ w = (nth a (blk x) 0, nth_error (vals x) a)).
  { intros w H. unfold ws in H. apply in_flat_map in H. destruct H as (x & Hx & H). unfold block_writes in H.
    apply in_map_iff in H. destruct H as (a & <- & Ha). apply in_seq in Ha. exists x, a. repeat split; auto; lia. }
  destruct (write_all_some _ ws (repeat zero m)) as (l & E & Hl).
  { intros w H. destruct (Hin w H) as (x & a & Hx & Ha & ->). simpl. rewrite repeat_length. split.
    - apply (co_cover _ _ _ _ CO). exists x. split; auto. now apply nth_In.
    - destruct (nth_error (vals x) a) eqn:N; [eauto|]. apply nth_error_None in N. rewrite HL in N by auto. lia. }
  exists l. split; auto. split; [now rewrite Hl, repeat_length|].
  assert (ND : NoDup (map fst ws)).
  { unfold ws. rewrite map_flat_map. apply NoDup_flat_map.
    - apply (co_nodup _ _ _ _ CO).
    - intros x Hx. unfold block_writes. rewrite map_map. simpl. rewrite <- list_as_map_nth. now apply (co_blk _ _ _ _ CO).
    - intros x y k Hx Hy. unfold block_writes. rewrite !map_map. simpl. rewrite <- !list_as_map_nth.
      now apply (co_disj _ _ _ _ CO). }
  intros x a k Hx Ha. apply (write_all_spec _ ws _ _ ND E).
  unfold ws. apply in_flat_map. exists x. split; auto. unfold block_writes. apply in_map_iff.
  exists a. split.
  - f_equal. now apply nth_error_nth.
  - apply in_seq. assert (a < length (blk x)) by (apply nth_error_Some; congruence). lia.
Qed.

Lemma cells_unique : forall X (cells : list X) pre blk m k, cells_ok cells pre blk m -> k < m ->
  exists! p, In (fst p) cells /\ nth_error (blk (fst p)) (snd p) = Some k.
Proof.
  intros X cells pre blk m k CO Hk. apply (co_cover _ _ _ _ CO) in Hk. destruct Hk as (x & Hx & H).
  apply In_nth_error in H. destruct H as (a & Ha). exists (x, a). split; [auto|].
  intros [y b] [Hy Hb]. simpl in *.
  assert (x = y).
  { eapply (co_disj _ _ _ _ CO); eauto; eapply nth_error_In; eauto. }
  subst y. f_equal. pose proof (co_blk _ _ _ _ CO x Hx) as ND.
  rewrite NoDup_nth_error in ND. apply ND; [|congruence].
  apply nth_error_Some. congruence.
Qed.

(** ** A row written from quantum numbers: the last write wins, as in a dictionary *)
Lemma dict_build_last : forall K V eqb (eqb_ok : forall a b : K, eqb a b = true <-> a = b) (ps : list (K * V)) k v,
  In (k, v) ps -> exists v', dict_get eqb k (dict_build _ _ eqb ps) = Some v'.
Proof.
  intros K V eqb ok ps k v. unfold dict_build.
  assert (G : forall ps d, (In (k, v) ps \/ exists v', dict_get eqb k d = Some v') ->
     exists v', dict_get eqb k (fold_left (fun d p => dict_set eqb (fst p) (snd p) d) ps d) = Some v').
  { clear ps. induction ps as [|[k1 v1] ps IH]; simpl; intros d H.
    - destruct H as [[]|H]; auto.
    - apply IH. destruct H as [[E|H]|[v' H]]; auto.
      + injection E as -> ->. right. rewrite dict_get_set_same by auto. eauto.
      + right. destruct (eqb k k1) eqn:E.
        * apply ok in E. subst. rewrite dict_get_set_same by auto. eauto.
        * rewrite dict_get_set_other; eauto. intros ->. assert (eqb k1 k1 = true) by now apply ok. congruence. }
  intros. apply G. auto.
Qed.

Lemma dict_build_in : forall K V eqb (eqb_ok : forall a b : K, eqb a b = true <-> a = b) (ps : list (K * V)) k v,
  dict_get eqb k (dict_build _ _ eqb ps) = Some v -> In (k, v) ps.
Proof.
  intros K V eqb ok ps k v. unfold dict_build.
  assert (G : forall ps d,
     dict_get eqb k (fold_left (fun d p => dict_set eqb (fst p) (snd p) d) ps d) = Some v ->
     In (k, v) ps \/ dict_get eqb k d = Some v).
  { clear ps. induction ps as [|[k1 v1] ps IH]; simpl; intros d H; auto.
    apply IH in H. destruct H as [H|H]; auto. destruct (eqb k k1) eqn:E.
    - apply ok in E. subst. rewrite dict_get_set_same in H by auto. injection H as ->. auto.
    - rewrite dict_get_set_other in H; auto. intros ->. assert (eqb k1 k1 = true) by now apply ok. congruence. }
  intros H. apply G in H. destruct H as [H|H]; auto. discriminate.
Qed.

Lemma write_dict : forall A (f : list Z -> A) (ps : list (list Z * nat)) l l',
  write_all l (map (fun p => (snd p, Some (f (fst p)))) ps) = Some l' ->
  forall k q, dict_get Nat.eqb k (dict_build _ _ Nat.eqb (map (fun p => (snd p, fst p)) ps)) = Some q ->
  nth_error l' k = Some (f q).
Proof.
  intros A f ps l l' E k q. unfold dict_build.
  assert (G : forall ps d l l',
    write_all l (map (fun p => (snd p, Some (f (fst p)))) ps) = Some l' ->
    (forall q, dict_get Nat.eqb k d = Some q -> nth_error l k = Some (f q)) ->
    forall q, dict_get Nat.eqb k (fold_left (fun d p => dict_set Nat.eqb (fst p) (snd p) d)
               (map (fun p => (snd p, fst p)) ps) d) = Some q -> nth_error l' k = Some (f q)).
  { clear. induction ps as [|[q1 k1] ps IH]; intros d l l' E H q.
    - unfold write_all in E. simpl in *. injection E as <-. apply H.
    - unfold write_all in E. simpl in E.
      assert (N : forall ws, fold_left (fun acc w =>
        match acc, snd w with
        | Some l, Some v => if fst w <? length l then Some (set_nth (fst w) v l) else None
        | _, _ => None end) ws (@None (list A)) = None) by (induction ws; simpl; auto).
      destruct (Nat.ltb_spec k1 (length l)) as [Hk|]; [|rewrite N in E; discriminate].
      apply (IH _ _ _ E). clear q. intros q Hq. simpl in Hq.
      destruct (Nat.eq_dec k k1) as [->|Hne].
      + rewrite dict_get_set_same in Hq by apply Nat.eqb_eq. injection Hq as <-. now apply nth_error_set_same.
      + rewrite dict_get_set_other in Hq by (auto; apply Nat.eqb_eq).
        rewrite nth_error_set_other by auto. auto. }
  apply (G ps [] l l' E). discriminate.
Qed.

Lemma qn_row_spec : forall si j, inverse_on (qn_ind si) (ind_qn si) (si_nmany si) ->
  exists row, qn_row si (si_nmany si) j = Some row /\ length row = si_nmany si /\
    forall k q, ind_qn si k = Some q -> nth_error row k = Some (inject_Z (nth j q 0%Z)).
Proof.
  intros si j [_ COV]. unfold qn_row.
  destruct (write_all_some _ (map (fun p => (snd p, Some (inject_Z (nth j (fst p) 0%Z)))) (qn_pairs si))
             (repeat 0%Q (si_nmany si))) as (row & E & Hl).
  - intros w Hw. apply in_map_iff in Hw. destruct Hw as ([q k] & <- & Hin). simpl. rewrite repeat_length.
    split; [|eauto]. apply COV. unfold ind_qn, make_quantum_numbers. simpl.
    apply dict_build_last with (v := q); [apply Nat.eqb_eq|]. apply in_map_iff. exists (q, k). auto.
  - exists row. rewrite repeat_length in Hl. split; [exact E|]. split; [exact Hl|].
    intros k q Hq. eapply (write_dict _ (fun q => inject_Z (nth j q 0%Z))); eauto.
Qed.

Lemma all_some_map : forall A B (f : A -> option B) (P : A -> B -> Prop) l,
  (forall a, In a l -> exists b, f a = Some b /\ P a b) ->
  exists bs, all_some (map f l) = Some bs /\ Forall2 P l bs.
Proof.
  induction l as [|a l IH]; simpl; intros H.
  - exists []. auto.
  - destruct (H a) as (b & E & Hb); auto. destruct IH as (bs & Es & Hs); auto.
    exists (b :: bs). rewrite E, Es. simpl. split; auto.
Qed.

(** ** The order *)
Lemma q_lt_spec : forall x y, q_lt x y = true <-> (x < y)%Q.
Proof.
  intros. unfold q_lt. rewrite negb_true_iff. split.
  - intros H. apply Qnot_le_lt. intros L. apply Qle_bool_iff in L. congruence.
  - intros H. destruct (Qle_bool y x) eqn:E; auto. apply Qle_bool_iff in E. exfalso. apply (Qlt_not_le _ _ H E).
Qed.
Lemma q_lt_false : forall x y, q_lt x y = false <-> (y <= x)%Q.
Proof.
  intros. split.
  - intros H. apply Qnot_lt_le. intros L. apply q_lt_spec in L. congruence.
  - intros H. destruct (q_lt x y) eqn:E; auto. apply q_lt_spec in E. exfalso. apply (Qlt_not_le _ _ E H).
Qed.

Lemma lex_le_total : forall x y, lex_le x y = true \/ lex_le y x = true.
Proof.
  induction x as [|a x IH]; intros [|b y]; simpl; auto.
  destruct (q_lt a b) eqn:E1; auto. destruct (q_lt b a) eqn:E2; auto.
Qed.

Lemma lex_le_trans : forall x y z, length x = length y -> length y = length z ->
  lex_le x y = true -> lex_le y z = true -> lex_le x z = true.
Proof.
  induction x as [|a x IH]; intros [|b y] [|c z]; simpl; try discriminate; auto.
  intros Hl1 Hl2. injection Hl1 as Hl1. injection Hl2 as Hl2.
  destruct (q_lt a b) eqn:E1.
  - intros _. destruct (q_lt b c) eqn:E2.
    + intros _. apply q_lt_spec in E1, E2. assert (q_lt a c = true) as -> by (apply q_lt_spec; eapply Qlt_trans; eauto). auto.
    + destruct (q_lt c b) eqn:E3; [discriminate|]. apply q_lt_spec in E1. apply q_lt_false in E3.
      intros _. assert (q_lt a c = true) as -> by (apply q_lt_spec; eapply Qlt_le_trans; eauto). auto.
  - destruct (q_lt b a) eqn:E2; [discriminate|]. intros H1.
    apply q_lt_false in E1, E2.
    destruct (q_lt b c) eqn:E3.
    + intros _. apply q_lt_spec in E3. assert (q_lt a c = true) as -> by (apply q_lt_spec; eapply Qle_lt_trans; eauto). auto.
    + destruct (q_lt c b) eqn:E4; [discriminate|]. apply q_lt_false in E3, E4. intros H2.
      assert (q_lt a c = false) as -> by (apply q_lt_false; eapply Qle_trans; eauto).
      assert (q_lt c a = false) as -> by (apply q_lt_false; eapply Qle_trans; eauto).
      eapply IH; eauto.
Qed.

Section SortFacts.
Variable le : nat -> nat -> bool.
Hypothesis total : forall a b, le a b = true \/ le b a = true.
Hypothesis trans : forall a b c, le a b = true -> le b c = true -> le a c = true.

Lemma insert_perm : forall x l, Permutation (x :: l) (insert le x l).
Proof.
  induction l as [|y l IH]; simpl; auto.
  destruct (le x y); auto. eapply perm_trans; [apply perm_swap|]. now constructor.
Qed.
Lemma isort_perm : forall l, Permutation l (isort le l).
Proof.
  induction l as [|x l IH]; simpl; auto. eapply perm_trans; [|apply insert_perm]. now constructor.
Qed.
Lemma insert_sorted : forall x l, StronglySorted (fun a b => le a b = true) l ->
  StronglySorted (fun a b => le a b = true) (insert le x l).
Proof.
  induction l as [|y l IH]; simpl; intros H.
  - constructor; [constructor|constructor].
  - inversion H as [|? ? Hs Hf]; subst. destruct (le x y) eqn:E.
    + constructor; auto. constructor; auto. eapply Forall_impl; [|exact Hf]. intros z Hz. simpl in Hz. eapply trans; eauto.
    + constructor; auto. apply Forall_forall. intros z Hz.
      apply Permutation_in with (l' := x :: l) in Hz; [|apply Permutation_sym, insert_perm].
      destruct Hz as [<-|Hz].
      * destruct (total x y); auto. congruence.
      * rewrite Forall_forall in Hf. auto.
Qed.
Lemma isort_sorted : forall l, StronglySorted (fun a b => le a b = true) (isort le l).
Proof. induction l; simpl; [constructor|]. now apply insert_sorted. Qed.
End SortFacts.

Lemma strongly_nth : forall A (R : A -> A -> Prop) l, StronglySorted R l ->
  forall i j a b, i < j -> nth_error l i = Some a -> nth_error l j = Some b -> R a b.
Proof.
  induction 1 as [|x l Hs IH Hf]; intros i j a b Hij Ha Hb.
  - destruct i; discriminate.
  - destruct i; destruct j; simpl in *; try lia.
    + injection Ha as <-. rewrite Forall_forall in Hf. apply Hf. eapply nth_error_In; eauto.
    + eapply IH; [|eauto|eauto]. lia.
Qed.

(** ** The indexings the program can have *)
Definition indexed (n : nat) (indexing : string) (si : SI) : Prop :=
  exists ops, (ops = [] \/ ix_of indexing n = IxCharge \/ ix_of indexing n = IxSz) /\
    (forall k, In k (concat ops) -> k < 2 ^ n) /\
    remove_many (si_init n indexing) ops = Some si.

Lemma indexed_facts : forall n indexing si, 1 <= n -> indexed n indexing si ->
  si_nsingle si = n /\ si_ncharge si = n + 1 /\ si_indexing si = ix_of indexing n /\
  exists live, si_ok si live /\ (ix_of indexing n = IxSz \/ ix_of indexing n = IxSsq -> sz_ok si) /\
    (ix_of indexing n = IxSsq \/ ix_of indexing n = IxLin -> si = si_init n indexing).
Proof.
  intros n indexing si Hn (ops & Hor & Hk & E).
  assert (I0 : si_ncharge (si_init n indexing) = n + 1) by (unfold si_init; destruct (ix_of indexing n); reflexivity).
  destruct Hor as [->|Hix].
  - simpl in E. injection E as <-. rewrite init_n, init_ix. repeat split; auto.
    exists all_live. split; [apply si_init_ok|]. split; auto. intros. now apply si_init_sz_ok.
  - destruct (hist_many ops (si_init n indexing) all_live) as (si' & E' & H1 & H2 & H3).
    + now apply init_hist.
    + now rewrite init_n.
    + rewrite E in E'. injection E' as <-. rewrite init_n in H2. rewrite init_ix in H3.
      repeat split; auto.
      * rewrite (hi_ncharge _ _ H1). lia.
      * exists (fold_left minus ops all_live). split; [apply (hi_ok _ _ H1)|]. split.
        -- pose proof (hi_ix _ _ H1) as HX. rewrite H3 in HX.
           intros [Es|Es]; rewrite Es in *; [tauto|destruct Hix; congruence].
        -- intros [Es|Es]; destruct Hix; congruence.
Qed.

Lemma ssq_init_cells : forall n name, 1 <= n -> ix_of name n = IxSsq ->
  let si := si_init n name in
  cells_ok (ssq_cells si) (fun x => [Z.of_nat (fst (fst x)); snd (fst x); snd x]) (ssq_blk si) (length (si_i si)).
Proof.
  intros n name Hn1 Hix si.
  pose proof (si_init_ok n name) as OK. fold si in OK.
  assert (He : Nat.even n = true) by (eapply ix_of_even; eauto).
  assert (SZ : sz_ok si) by (apply si_init_sz_ok; auto).
  assert (En : si_nsingle si = n) by apply init_n.
  assert (Hnc : si_ncharge si = si_nsingle si + 1) by (unfold si, si_init; rewrite Hix; reflexivity).
  assert (Esz : si_szlst si = Some (enum_szlst (construct_szlst n))).
  { unfold si, si_init. rewrite Hix. reflexivity. }
  assert (Essq : si_ssqlst si = Some (construct_ssqlst (enum_szlst (construct_szlst n)) n)).
  { unfold si, si_init. rewrite Hix. reflexivity. }
  pose proof (ssqcells_ok si all_live OK Hnc) as CO. rewrite En in CO.
  specialize (CO He SZ). rewrite Esz, Essq in CO.
  specialize (CO (ssqlst_refines_szlst n He Hn1)). apply CO.
  intros c k Hc Hk. rewrite construct_ssqlst_enum by auto.
  rewrite szrange_len in Hk by auto.
  destruct (enum_tabs_nth (ssq_counts n) 0 c) as (s & E1).
  { unfold ssq_counts. rewrite map_length, seq_length. lia. }
  rewrite E1. unfold ssq_counts. rewrite nth_map_seq by lia.
  destruct (enum_rows_nth (map (fun k => cell_counts n c k) (seq 0 (S (smax n c)))) s k) as (s' & E2).
  { rewrite map_length, seq_length. lia. }
  rewrite E2, nth_map_seq, enum_counts_length by lia.
  destruct (ssqrange_facts n c k) as [HL _]; [auto|lia|]. rewrite HL.
  unfold cell_counts. now rewrite map_length, seq_length.
Qed.

Lemma indexed_qn : forall n indexing si, 1 <= n -> indexed n indexing si ->
  inverse_on (qn_ind si) (ind_qn si) (si_nmany si) /\ qn_meaning si.
Proof.
  intros n indexing si Hn (ops & Hor & Hk & E).
  destruct Hor as [->|Hix].
  - simpl in E. injection E as <-.
    replace (si_nmany (si_init n indexing)) with (2 ^ n) by (unfold si_init; destruct (ix_of indexing n); reflexivity).
    now apply qn_init.
  - destruct (qn_history n indexing ops Hix Hk) as (si' & E' & H). rewrite E in E'. injection E' as <-. auto.
Qed.

Lemma remove_many_app : forall ops ops' si,
  remove_many si (ops ++ ops') = match remove_many si ops with Some si' => remove_many si' ops' | None => None end.
Proof.
  induction ops as [|lin ops IH]; simpl; intros; auto. destruct (remove_fock_states si lin); auto.
Qed.
