(** How many rows all_bbp gets: the numbering of a reached state-indexing object against the enumeration of the compiled
    kernel handler. *)
From Coq Require Import String List Arith Lia ZArith Bool Permutation.
From Verif Require Import Base Bits Indexing IndexingProofs RemoveProofs Binom SsqProofs Qn
  PropIndexing DMIndex DMIndexProofs DMReach PropDMIndex SsqNumbering PropSsqNumbering CRing Layout Kernel KernelProofs CKernelHandler CKernelProofs.
Import ListNotations.
Open Scope nat_scope.
Local Notation length := List.length.

(** what the numbering gives, with or without multiplets *)
Record tagged (kd : kind) (dm : DMI) : Prop := {
  tg_kind : dm_kind dm = kd;
  tg_nodup : forall c, NoDup (considered dm c);
  tg_range : forall c b, In b (considered dm c) -> c < dm_ncharge dm;
  tg_states : forall e, In e (dm_log dm) -> In (e_b e) (considered dm (e_ch e)) /\ In (e_bp e) (considered dm (e_ch e));
  tg_in : forall e, In e (dm_log dm) -> get_ind_dm0 dm (e_b e) (e_bp e) (e_ch e) = Some (Z.of_nat (e_cnt e)) /\
    get_bool_dm0 dm (e_b e) (e_bp e) (e_ch e) = Some (e_dict e);
  tg_out : forall b bp c, In b (considered dm c) -> In bp (considered dm c) -> (kd = KPauli -> bp = b) ->
    (forall e, In e (dm_log dm) -> ~ (e_b e = b /\ e_bp e = bp /\ e_ch e = c)) ->
    get_ind_dm0 dm b bp c = Some (-1)%Z /\ get_bool_dm0 dm b bp c = Some false;
  tg_once : forall e e', In e (dm_log dm) -> In e' (dm_log dm) ->
    e_b e = e_b e' -> e_bp e = e_bp e' -> e_ch e = e_ch e' -> e = e';
  tg_seq : map e_cnt (filter e_dict (dm_log dm)) = seq 0 (dm_ndm0 dm);
  tg_le : dm_npauli dm <= dm_ndm0 dm;
  tg_diag : forall e, In e (dm_log dm) -> e_dict e = true -> (e_cnt e < dm_npauli dm <-> e_b e = e_bp e);
  tg_order : kd = KDM -> forall e, In e (dm_log dm) -> e_dict e = true -> e_b e <> e_bp e ->
    In (e_b e, e_bp e) (combinations2 (considered dm (e_ch e)))
}.

Lemma off_combos : forall ixs qn nc L c b bp, In (c, (b, bp)) (off_items KDM ixs qn nc L) -> In (b, bp) (combinations2 (nth c L [])).
Proof.
  intros ixs qn nc L c b bp H. simpl in H. apply filter_In in H. destruct H as [H _]. apply in_flat_map in H.
  destruct H as (c1 & _ & H). apply in_map_iff in H. destruct H as (w & Ew & H). injection Ew as -> ->. auto.
Qed.
Theorem tagged_reach : forall kd n name si dm, 1 <= n -> ix_of name n <> IxSsq -> reach kd n name si dm -> tagged kd dm.
Proof.
  intros kd n name si dm Hn Hix R. apply reach_reached in R; auto.
  destruct (rc_make _ _ _ _ _ R) as (qn & qi & d0 & lst & E & L0 & SEL & SO & HQ). rewrite <- L0 in SO.
  set (L := lst ++ [[]]) in *. set (ixs := ix_of name n) in *.
  pose proof (dm_fields kd ixs qn qi (n + 1) d0 L) as F. rewrite <- E in F. destruct F as (F1 & F2 & F3 & _).
  assert (CON : forall c, considered dm c = nth c L []) by (intros c; unfold considered; now rewrite F3).
  assert (EN : dm_ndm0 dm = length (diag_items (n + 1) L) + length (off_items kd ixs qn (n + 1) L))
    by (rewrite E; apply dm_ndm0_eq; auto).
  assert (EP : dm_npauli dm = length (diag_items (n + 1) L)) by (rewrite E; apply dm_npauli_eq; auto).
  pose proof (log_in kd ixs qn qi (n + 1) d0 L Hix) as LI. rewrite <- E in LI.
  constructor.
  - exact F1.
  - intros c. rewrite CON. eapply so_block_nodup; eauto.
  - intros c b H. rewrite CON in H. destruct (so_in _ _ _ _ _ SO H). rewrite F2. auto.
  - intros e H. rewrite !CON. subst dm. eapply log_states; eauto.
  - intros e H. subst dm. destruct (get_entered kd ixs qn qi (n + 1) d0 L SO Hix e H) as (A & B & _). auto.
  - intros b bp c Hb Hbp HP HN. rewrite CON in Hb, Hbp. subst dm. apply (get_absent kd ixs qn qi (n + 1) d0 L SO Hix); auto.
  - subst dm. apply (log_unique kd ixs qn qi (n + 1) d0 L SO Hix).
  - rewrite EN. subst dm. apply dict_counters; auto.
  - lia.
  - intros e H De. apply LI in H. rewrite EP. destruct H as [(j & c & b & H & ->)|(j & c & b & bp & H & [->|[_ ->]])]; cbn in *.
    + assert (j < length (diag_items (n + 1) L)) by (apply nth_error_Some; congruence). tauto.
    + apply nth_error_In in H. apply (O_in kd ixs qn qi (n + 1) d0 L SO) in H. split; [lia|tauto].
    + discriminate.
  - intros -> e H De Ne. rewrite CON. apply LI in H. destruct H as [(j & c & b & H & ->)|(j & c & b & bp & H & [->|[_ ->]])]; cbn in *; try congruence.
    apply nth_error_In in H. eapply off_combos; eauto.
Qed.

Lemma soff_combos : forall qn nc L c b bp, In (c, (b, bp)) (SsqNumbering.O KDM qn nc L) -> In (b, bp) (combinations2 (nth c L [])).
Proof.
  intros qn nc L c b bp H. cbn [SsqNumbering.O] in H. apply filter_In in H. destruct H as [H _]. apply in_flat_map in H.
  destruct H as (c1 & _ & H). apply in_map_iff in H. destruct H as (w & Ew & H). injection Ew as -> ->. auto.
Qed.
Theorem tagged_ssq : forall kd n si dm, 1 <= n -> Nat.even n = true -> reach kd n "ssq" si dm -> whole_multiplets si dm -> tagged kd dm.
Proof.
  intros kd n si dm Hn He R W. destruct (setup kd n Hn He si dm R W) as (d0 & L & E & SO & CON & _ & QB & QS & CL).
  set (qn := ind_qn (si_init n "ssq")) in *. set (qi := qn_ind (si_init n "ssq")) in *.
  pose proof (dm_fields kd IxSsq qn qi (n + 1) d0 L) as F. fold qn qi in E. rewrite <- E in F. destruct F as (F1 & F2 & _).
  assert (EN : dm_ndm0 dm = length (SsqNumbering.D qn (n + 1) L) + length (SsqNumbering.O kd qn (n + 1) L))
    by (rewrite E; apply ss_ndm0).
  assert (EP : dm_npauli dm = length (SsqNumbering.D qn (n + 1) L)) by (rewrite E; apply ss_npauli).
  pose proof (slog_in kd qn qi (n + 1) d0 L SO QB QS CL) as LI. rewrite <- E in LI.
  assert (LOW : forall c b sz, In b (nth c L []) -> lowest qn b = true -> (sz =? - zss qn b)%Z = true -> at_sz qn qi b sz = b).
  { intros c b sz Hb Lb Es. apply Z.eqb_eq in Es. subst sz. eapply at_low; eauto. }
  constructor.
  - exact F1.
  - intros c. rewrite CON. eapply so_block_nodup; eauto.
  - intros c b H. rewrite CON in H. destruct (so_in _ _ _ _ _ SO H). rewrite F2. auto.
  - intros e H. rewrite !CON. subst dm. eapply slog_states; eauto.
  - intros e H. subst dm. destruct (s_entered kd qn qi (n + 1) d0 L SO QB QS CL e H) as (A & B & _). auto.
  - intros b bp c Hb Hbp HP HN. rewrite CON in Hb, Hbp. subst dm. apply (s_absent kd qn qi (n + 1) d0 L SO QB QS CL); auto.
  - subst dm. apply (slog_unique kd qn qi (n + 1) d0 L SO QB QS CL).
  - rewrite EN. subst dm. apply sdict_counters; auto.
  - lia.
  - intros e H De. apply LI in H. rewrite EP. destruct H as [(j & c & b & sz & H & Hs & ->)|(j & c & b & bp & sz & H & Hs & [->|[_ ->]])]; cbn in *.
    + assert (j < length (SsqNumbering.D qn (n + 1) L)) by (apply nth_error_Some; congruence). tauto.
    + apply nth_error_In in H. apply (sO_in kd qn qi (n + 1) d0 L SO) in H. destruct H as (H1 & H2 & H3 & H4 & H5 & H6 & H7).
      rewrite (LOW c b sz), (LOW c bp sz) by (auto; congruence). split; [lia|tauto].
    + discriminate.
  - intros -> e H De Ne. rewrite CON. apply LI in H. destruct H as [(j & c & b & sz & H & Hs & ->)|(j & c & b & bp & sz & H & Hs & [->|[_ ->]])]; cbn in *; try congruence.
    apply nth_error_In in H. pose proof H as H'. apply (sO_in KDM qn qi (n + 1) d0 L SO) in H'. destruct H' as (H1 & H2 & H3 & H4 & H5 & H6 & H7).
    rewrite (LOW c b sz), (LOW c bp sz) by (auto; congruence). eapply soff_combos; eauto.
Qed.

(** ** Counting the rows *)
Lemma in_prod_self : forall (l : list nat) b bp, In (b, bp) (list_prod l l) <-> In b l /\ In bp l.
Proof. intros. apply in_prod_iff. Qed.
Lemma list_prod_nodup : forall (l l' : list nat), NoDup l -> NoDup l' -> NoDup (list_prod l l').
Proof.
  induction l as [|a l IH]; intros l' N N'; cbn [list_prod]; [constructor|]. inversion N as [|? ? Ha N0]; subst.
  assert (X : forall A (u v : list A), NoDup u -> NoDup v -> (forall x, In x u -> ~ In x v) -> NoDup (u ++ v)).
  { clear. induction u; cbn; intros v Nu Nv D; auto. inversion Nu; subst. constructor.
    - rewrite in_app_iff. intros [H|H]; [auto|]. apply (D a); auto.
    - apply IHu; auto. }
  apply X; auto.
  - apply FinFun.Injective_map_NoDup; auto. intros x y E. now injection E.
  - intros [x y] H1 H2. apply in_map_iff in H1. destruct H1 as (z & E & _). injection E as <- <-. apply in_prod_iff in H2. tauto.
Qed.
Lemma pairs_of_in : forall no_coh no_conj l b bp, NoDup l -> In (b, bp) (pairs_of no_coh no_conj l) <->
  (if no_coh then b = bp /\ In b l else if no_conj then In (b, bp) (combinations_wr l) else In b l /\ In bp l).
Proof.
  intros no_coh no_conj l b bp N. unfold pairs_of. destruct no_coh; [|destruct no_conj; [tauto|apply in_prod_self]].
  rewrite in_map_iff. split.
  - intros (x & E & H). injection E as <- <-. auto.
  - intros (<- & H). eauto.
Qed.
Lemma pairs_of_nodup : forall no_coh no_conj l, NoDup l -> NoDup (pairs_of no_coh no_conj l).
Proof.
  intros no_coh no_conj l N. unfold pairs_of. destruct no_coh.
  - apply FinFun.Injective_map_NoDup; auto. intros x y E. now injection E.
  - destruct no_conj; [now apply combinations_wr_nodup|now apply list_prod_nodup].
Qed.
Lemma unique_rows_in : forall no_coh no_conj L b bp c, In (b, bp, c) (unique_rows no_coh no_conj L) <->
  c < ly_ncharge L /\ In (b, bp) (pairs_of no_coh no_conj (nth c (ly_statesdm L) [])) /\ uniq L b bp (Z.of_nat c) = true.
Proof.
  intros. unfold unique_rows. rewrite in_flat_map. split.
  - intros (c' & Hc & H). apply in_flat_map in H. destruct H as ([x y] & Hp & H). cbn [fst snd] in H.
    destruct (uniq L x y (Z.of_nat c')) eqn:U; [|destruct H]. destruct H as [E|[]]. injection E as <- <- <-. apply in_seq in Hc. split; [lia|]. auto.
  - intros (Hc & Hp & U). exists c. split; [apply in_seq; lia|]. apply in_flat_map. exists (b, bp). split; auto. cbn [fst snd]. rewrite U. now left.
Qed.
Lemma unique_rows_nodup : forall no_coh no_conj L, (forall c, NoDup (nth c (ly_statesdm L) [])) -> NoDup (unique_rows no_coh no_conj L).
Proof.
  intros no_coh no_conj L N. unfold unique_rows. apply NoDup_flat_map.
  - apply seq_NoDup.
  - intros c _. apply NoDup_flat_map.
    + now apply pairs_of_nodup.
    + intros p _. destruct (uniq _ _ _ _); repeat constructor; auto.
    + intros [x y] [x' y'] r _ _ H1 H2. cbn [fst snd] in *. destruct (uniq _ _ _ _); [|destruct H1]. destruct (uniq _ _ _ _); [|destruct H2].
      destruct H1 as [<-|[]]. destruct H2 as [E|[]]. injection E as <- <-. auto.
  - intros c c' r _ _ H1 H2. apply in_flat_map in H1, H2. destruct H1 as (p & _ & H1). destruct H2 as (p' & _ & H2).
    destruct (uniq _ _ _ _); [|destruct H1]. destruct (uniq _ _ _ _); [|destruct H2].
    destruct H1 as [<-|[]]. destruct H2 as [E|[]]. now injection E.
Qed.

Section Count.
Variables (kd : kind) (dm : DMI).
Hypothesis TG : tagged kd dm.
Hypothesis KD : kd <> KPauli.
Let L := lay_of dm.
Definition no_conj_of (k : kind) : bool := match k with KDMc => false | _ => true end.

Lemma slot_dm : forall b bp c, slot_at L b bp (Z.of_nat c) = dm0_slot dm b bp c.
Proof. intros. unfold slot_at, dm0_slot. rewrite (tg_kind _ _ TG). destruct kd; [congruence| |]; simpl; now rewrite Nat2Z.id. Qed.
Lemma uniq_some : forall b bp c u, get_bool_dm0 dm b bp c = Some u -> uniq L b bp (Z.of_nat c) = u.
Proof. intros b bp c u H. unfold uniq. rewrite slot_dm. now apply nth_of_error. Qed.
Lemma ind_some : forall b bp c k, get_ind_dm0 dm b bp c = Some k -> ind0 L b bp (Z.of_nat c) = k.
Proof. intros b bp c u H. unfold ind0. rewrite slot_dm. now apply nth_of_error. Qed.
Lemma tg_found : forall b bp c, In b (considered dm c) -> In bp (considered dm c) ->
  (exists e, In e (dm_log dm) /\ e_b e = b /\ e_bp e = bp /\ e_ch e = c) \/
  (get_ind_dm0 dm b bp c = Some (-1)%Z /\ get_bool_dm0 dm b bp c = Some false).
Proof.
  intros b bp c Hb Hbp.
  destruct (existsb (fun e => (e_b e =? b) && (e_bp e =? bp) && (e_ch e =? c))%bool (dm_log dm)) eqn:X.
  - left. apply existsb_exists in X. destruct X as (e & He & X). apply andb_prop in X. destruct X as [X X3]. apply andb_prop in X. destruct X as [X1 X2].
    apply Nat.eqb_eq in X1, X2, X3. eauto 10.
  - right. apply (tg_out _ _ TG); auto; [congruence|]. intros e He (E1 & E2 & E3).
    assert (existsb (fun e => (e_b e =? b) && (e_bp e =? bp) && (e_ch e =? c))%bool (dm_log dm) = true); [|congruence].
    apply existsb_exists. exists e. split; auto. rewrite E1, E2, E3, !Nat.eqb_refl. auto.
Qed.
Lemma uniq_event : forall b bp c, In b (considered dm c) -> In bp (considered dm c) ->
  (uniq L b bp (Z.of_nat c) = true <-> exists e, In e (dm_log dm) /\ e_dict e = true /\ e_b e = b /\ e_bp e = bp /\ e_ch e = c).
Proof.
  intros b bp c Hb Hbp. split.
  - intros U. destruct (tg_found b bp c Hb Hbp) as [(e & He & <- & <- & <-)|(_ & G)].
    + destruct (tg_in _ _ TG e He) as (_ & B). apply uniq_some in B. exists e. split; auto. split; [congruence|auto].
    + apply uniq_some in G. congruence.
  - intros (e & He & D & <- & <- & <-). destruct (tg_in _ _ TG e He) as (_ & B). apply uniq_some in B. congruence.
Qed.
Lemma read_ok : forall b bp c, c < ly_ncharge L -> In b (nth c (ly_statesdm L) []) -> In bp (nth c (ly_statesdm L) []) ->
  slot_at L b bp (Z.of_nat c) < length (ly_booldm0 L).
Proof.
  intros b bp c _ Hb Hbp. change (nth c (ly_statesdm L) []) with (considered dm c) in *. rewrite slot_dm.
  assert (X : exists u, get_bool_dm0 dm b bp c = Some u).
  { destruct (tg_found b bp c Hb Hbp) as [(e & He & <- & <- & <-)|(_ & G)]; eauto. destruct (tg_in _ _ TG e He) as (_ & B). eauto. }
  destruct X as (u & X). unfold get_bool_dm0 in X. apply nth_error_Some. change (ly_booldm0 L) with (booldm0 dm). congruence.
Qed.

Definition ev_row (e : ev) : row := (e_b e, e_bp e, e_ch e).
(** the elements that got a number, in the order of the numbers *)
Definition numbered_rows : list row := map ev_row (filter e_dict (dm_log dm)).
Lemma filter_nodup_ev : NoDup (filter e_dict (dm_log dm)).
Proof.
  apply (NoDup_map_inv e_cnt). rewrite (tg_seq _ _ TG). apply seq_NoDup.
Qed.
Lemma map_nodup_in : forall A B (f : A -> B) l, NoDup l -> (forall x y, In x l -> In y l -> f x = f y -> x = y) -> NoDup (map f l).
Proof.
  induction l as [|a l IH]; cbn; intros N J; [constructor|]. inversion N; subst. constructor.
  - intros H. apply in_map_iff in H. destruct H as (y & E & Hy). assert (y = a) by (apply J; auto). subst. auto.
  - apply IH; auto.
Qed.
Lemma numbered_nodup : NoDup numbered_rows.
Proof.
  apply map_nodup_in; [apply filter_nodup_ev|]. intros e e' H H' E. apply filter_In in H, H'. injection E as E1 E2 E3.
  apply (tg_once _ _ TG); tauto.
Qed.
Lemma numbered_in : forall b bp c, In (b, bp, c) numbered_rows <->
  In b (considered dm c) /\ In bp (considered dm c) /\ uniq L b bp (Z.of_nat c) = true.
Proof.
  intros b bp c. unfold numbered_rows. rewrite in_map_iff. split.
  - intros (e & E & H). apply filter_In in H. destruct H as [H D]. injection E as <- <- <-.
    destruct (tg_states _ _ TG e H) as (S1 & S2). repeat split; auto. apply uniq_event; auto. exists e. auto.
  - intros (Hb & Hbp & U). apply uniq_event in U; auto. destruct U as (e & He & D & <- & <- & <-). exists e. split; auto. apply filter_In. auto.
Qed.
Lemma numbered_length : length numbered_rows = dm_ndm0 dm.
Proof. unfold numbered_rows. rewrite map_length, <- (map_length e_cnt), (tg_seq _ _ TG). apply seq_length. Qed.
Lemma rows_in : forall b bp c, In (b, bp, c) (unique_rows false (no_conj_of kd) L) <->
  In b (considered dm c) /\ In bp (considered dm c) /\ uniq L b bp (Z.of_nat c) = true.
Proof.
  intros b bp c. rewrite unique_rows_in. change (nth c (ly_statesdm L) []) with (considered dm c). rewrite pairs_of_in by apply (tg_nodup _ _ TG). cbn iota.
  assert (Ek : kd = KDM \/ kd = KDMc) by (destruct kd; auto; congruence).
  destruct Ek as [Ek|Ek]; rewrite Ek; cbn [no_conj_of].
  - split.
    + intros (_ & H & U). apply combinations_wr_in in H. destruct H as [[-> H]|H]; auto. apply combinations2_in in H; [tauto|apply (tg_nodup _ _ TG)].
    + intros (Hb & Hbp & U). split; [eapply (tg_range _ _ TG); eauto|]. split; auto. apply combinations_wr_in.
      destruct (Nat.eq_dec b bp) as [->|Hne]; auto. right. apply uniq_event in U; auto. destruct U as (e & He & D & <- & <- & <-).
      apply (tg_order _ _ TG); auto.
  - split; [tauto|]. intros (Hb & Hbp & U). split; auto. eapply (tg_range _ _ TG); eauto.
Qed.
Theorem rows_perm : Permutation numbered_rows (unique_rows false (no_conj_of kd) L).
Proof.
  apply NoDup_Permutation; [apply numbered_nodup|apply unique_rows_nodup; intros c; apply (tg_nodup _ _ TG)|].
  intros [[b bp] c]. rewrite numbered_in, rows_in. reflexivity.
Qed.
Theorem all_bbp_fills : set_all_bbp false (no_conj_of kd) L = Some (unique_rows false (no_conj_of kd) L).
Proof.
  apply set_all_bbp_full; [exact read_ok|]. rewrite <- (Permutation_length rows_perm). apply numbered_length.
Qed.

(** without coherences *)
Lemma filter_seq : forall m n k, filter (fun x => x <? m) (seq k n) = seq k (Nat.min n (m - k)).
Proof.
  intros m n. induction n as [|n IH]; intros k; [reflexivity|]. cbn [seq filter]. rewrite IH. destruct (Nat.ltb_spec k m).
  - replace (Nat.min (S n) (m - k)) with (S (Nat.min n (m - S k))) by lia. reflexivity.
  - replace (Nat.min (S n) (m - k)) with 0 by lia. replace (Nat.min n (m - S k)) with 0 by lia. reflexivity.
Qed.
Definition diag_rows : list row := map ev_row (filter (fun e => e_b e =? e_bp e) (filter e_dict (dm_log dm))).
Lemma diag_length : length diag_rows = dm_npauli dm.
Proof.
  unfold diag_rows. rewrite map_length, <- (map_length e_cnt).
  assert (X : forall l, (forall e, In e l -> In e (dm_log dm) /\ e_dict e = true) ->
     map e_cnt (filter (fun e => e_b e =? e_bp e) l) = filter (fun x => x <? dm_npauli dm) (map e_cnt l)).
  { induction l as [|e l IH]; intros H; [reflexivity|]. cbn [filter map]. destruct (H e (or_introl eq_refl)) as (H1 & H2). pose proof (tg_diag _ _ TG e H1 H2) as D.
    specialize (IH (fun e' He' => H e' (or_intror He'))). destruct (Nat.ltb_spec (e_cnt e) (dm_npauli dm)) as [Q|Q]; destruct (Nat.eqb_spec (e_b e) (e_bp e)) as [Q'|Q']; cbn [map]; rewrite ?IH; auto; exfalso; first [apply D in Q'; lia|apply D in Q; congruence]. }
  rewrite X by (intros e H; now apply filter_In in H). rewrite (tg_seq _ _ TG), filter_seq, seq_length. pose proof (tg_le _ _ TG). lia.
Qed.
Lemma diag_in : forall b bp c, In (b, bp, c) diag_rows <-> b = bp /\ In b (considered dm c) /\ uniq L b bp (Z.of_nat c) = true.
Proof.
  intros b bp c. unfold diag_rows. rewrite in_map_iff. split.
  - intros (e & E & H). apply filter_In in H. destruct H as [H D]. apply Nat.eqb_eq in D. apply filter_In in H. destruct H as [H D']. injection E as <- <- <-.
    destruct (tg_states _ _ TG e H) as (S1 & S2). repeat split; auto. apply uniq_event; auto. exists e. auto.
  - intros (-> & Hb & U). apply uniq_event in U; auto. destruct U as (e & He & D & E1 & E2 & E3). exists e. unfold ev_row. rewrite E1, E2, E3. split; auto.
    apply filter_In. split; [apply filter_In; auto|]. rewrite E1, E2. apply Nat.eqb_refl.
Qed.
Theorem diag_perm : forall no_conj, Permutation diag_rows (unique_rows true no_conj L).
Proof.
  intros no_conj. apply NoDup_Permutation.
  - apply map_nodup_in; [apply NoDup_filter, filter_nodup_ev|]. intros e e' H H' E. apply filter_In in H, H'. destruct H as [H _]. destruct H' as [H' _].
    apply filter_In in H, H'. injection E as E1 E2 E3. apply (tg_once _ _ TG); tauto.
  - apply unique_rows_nodup; intros c; apply (tg_nodup _ _ TG).
  - intros [[b bp] c]. rewrite diag_in, unique_rows_in. change (nth c (ly_statesdm L) []) with (considered dm c).
    rewrite pairs_of_in by apply (tg_nodup _ _ TG). cbn iota. split; [|tauto]. intros (-> & H & U). split; [eapply (tg_range _ _ TG); eauto|auto].
Qed.
Theorem all_bb_fills : forall no_conj, set_all_bbp true no_conj L = Some (unique_rows true no_conj L).
Proof. intros no_conj. apply set_all_bbp_full; [exact read_ok|]. rewrite <- (Permutation_length (diag_perm no_conj)). apply diag_length. Qed.
End Count.

(** ** The rows that an iteration writes *)
Section Par.
Variable K : CRing.
Local Open Scope rng_scope.
Variables (kd : kind) (dm : DMI).
Hypothesis TG : tagged kd dm.
Hypothesis KD : kd <> KPauli.
Let L := lay_of dm.
(** a call of generate_coupling_terms for (b, bp, c) *)
Definition aims (b bp : nat) (c : Z) (x : call K) : Prop :=
  match x with
  | CEnergy _ _ _ _ _ => False
  | CElem _ _ b' bp' c' _ _ _ => b' = b /\ bp' = bp /\ c' = c
  | CPauli _ _ _ bb _ => bb = ind0 L b bp c
  end.
Definition listed (r : row) : Prop := let '(b, bp, c) := r in
  In b (considered dm c) /\ In bp (considered dm c) /\ uniq L b bp (Z.of_nat c) = true.
Definition r_num (r : row) : Z := let '(b, bp, c) := r in ind0 L b bp (Z.of_nat c).
Definition r_off (r : row) : bool := let '(b, bp, c) := r in negb (b =? bp).

Lemma listed_num : forall r, listed r -> exists e, In e (dm_log dm) /\ e_dict e = true /\ ev_row e = r /\ r_num r = Z.of_nat (e_cnt e).
Proof.
  intros [[b bp] c] (Hb & Hbp & U). destruct (proj1 (uniq_event kd dm TG KD b bp c Hb Hbp) U) as (e & He & D & <- & <- & <-).
  exists e. repeat split; auto. cbn. destruct (tg_in _ _ TG e He) as (I & _). apply (ind_some kd dm TG KD) in I. exact I.
Qed.
Lemma cnt_lt : forall e, In e (dm_log dm) -> e_dict e = true -> e_cnt e < dm_ndm0 dm.
Proof.
  intros e He D. assert (In (e_cnt e) (seq 0 (dm_ndm0 dm))) by (rewrite <- (tg_seq _ _ TG); apply in_map, filter_In; auto). apply in_seq in H. lia.
Qed.
Lemma cnt_inj : forall e e', In e (dm_log dm) -> In e' (dm_log dm) -> e_dict e = true -> e_dict e' = true -> e_cnt e = e_cnt e' -> e = e'.
Proof.
  intros e e' H H' D D' E. assert (N : NoDup (map e_cnt (filter e_dict (dm_log dm)))) by (rewrite (tg_seq _ _ TG); apply seq_NoDup).
  assert (X : forall l, NoDup (map e_cnt l) -> In e l -> In e' l -> e = e').
  { induction l as [|a l IH]; cbn; intros Nd; [tauto|]. inversion Nd as [|? ? Na Nd']; subst. intros [->|I] [->|I']; auto.
    - exfalso. apply Na. rewrite E. now apply in_map.
    - exfalso. apply Na. rewrite <- E. now apply in_map. }
  apply (X _ N); apply filter_In; auto.
Qed.
Lemma num_inj : forall r r', listed r -> listed r' -> r_num r = r_num r' -> r = r'.
Proof.
  intros r r' H H' E. destruct (listed_num r H) as (e & A & B & <- & D). destruct (listed_num r' H') as (e' & A' & B' & <- & D').
  rewrite D, D' in E. f_equal. apply cnt_inj; auto. lia.
Qed.
Lemma num_cases : forall r, listed r -> (0 <= r_num r < ndm0Z L)%Z /\ has_imag L (r_num r) = r_off r /\ (r_off r = true -> npauliZ L <= r_num r)%Z.
Proof.
  intros r H. destruct (listed_num r H) as (e & A & B & <- & D). rewrite D. unfold has_imag, imag_ind, ndm0Z, npauliZ. cbn [ly_ndm0 ly_npauli L lay_of].
  pose proof (cnt_lt e A B). pose proof (tg_diag _ _ TG e A B) as Q. split; [lia|]. cbn [ev_row r_off].
  destruct (Nat.eqb_spec (e_b e) (e_bp e)) as [E|E]; cbn [negb].
  - apply Q in E. split; [apply Z.leb_gt; lia|discriminate].
  - assert (~ e_cnt e < dm_npauli dm) by tauto. split; [apply Z.leb_le; lia|lia].
Qed.
(** rows of the kernel that belong to the element *)
Definition own (r : row) (i : Z) : Prop := i = r_num r \/ (r_off r = true /\ i = imag_ind L (r_num r)).
Lemma own_apart : forall r r' i, listed r -> listed r' -> own r i -> own r' i -> r = r'.
Proof.
  intros r r' i H H' [O1|(O1 & O2)] [P1|(P1 & P2)].
  - apply num_inj; auto. congruence.
  - exfalso. destruct (num_cases r H) as (A & _). destruct (num_cases r' H') as (A' & _ & B'). specialize (B' P1). unfold imag_ind in *. lia.
  - exfalso. destruct (num_cases r' H') as (A' & _). destruct (num_cases r H) as (A & _ & B). specialize (B O1). unfold imag_ind in *. lia.
  - apply num_inj; auto. unfold imag_ind in *. lia.
Qed.

Section Iter.
Variables (E : nat -> K) (cpl : nat -> nat -> Z -> list (call K)).
Definition aimed (r : row) : Prop := let '(b, bp, c) := r in forall x, In x (cpl b bp (Z.of_nat c)) -> aims b bp (Z.of_nat c) x.
Lemma iter_own : forall r u, listed r -> aimed r -> In u (flat_map (c_updates K L) (c_iter K E cpl r)) -> own r (fst (fst u)).
Proof.
  intros [[b bp] c] u H AIM Hu. destruct (num_cases _ H) as (_ & HI & _). unfold own. cbn [r_num r_off] in *. set (k := ind0 L b bp (Z.of_nat c)) in *.
  apply in_flat_map in Hu. destruct Hu as (x & Hx & Hu). cbn [c_iter] in Hx. destruct Hx as [<-|Hx].
  - cbn [c_updates] in Hu. destruct (b =? bp) eqn:Eb; [destruct Hu|]. fold k in Hu. cbn [negb]. destruct Hu as [<-|[<-|[]]]; cbn; auto.
  - apply AIM in Hx. destruct x as [|f b' bp' c' a ap ac|fm fp bb aa]; [destruct Hx| |].
    + cbn in Hx. destruct Hx as (-> & -> & ->). cbn [c_updates kh_updates] in Hu. fold k in Hu. rewrite HI in Hu.
      destruct (has_imag L (ind0 L a ap ac)); destruct (negb (b =? bp)); cbn [app] in Hu; simpl in Hu;
      repeat (destruct Hu as [<-|Hu]; [cbn; auto|]); destruct Hu.
    + cbn in Hx. subst bb. cbn in Hu. destruct Hu as [<-|[<-|[]]]; cbn; auto.
Qed.
Lemma mf_own : forall phi r u, listed r -> aimed r -> In u (flat_map (mf_updates K L phi) (c_iter K E cpl r)) -> own r (fst u).
Proof.
  intros phi [[b bp] c] u H AIM Hu. destruct (num_cases _ H) as (_ & HI & _). unfold own. cbn [r_num r_off] in *. set (k := ind0 L b bp (Z.of_nat c)) in *.
  apply in_flat_map in Hu. destruct Hu as (x & Hx & Hu). cbn [c_iter] in Hx. destruct Hx as [<-|Hx].
  - cbn [mf_updates] in Hu. destruct (b =? bp) eqn:Eb; [destruct Hu|]. fold k in Hu. cbn [negb]. destruct Hu as [<-|[<-|[]]]; cbn; auto.
  - apply AIM in Hx. destruct x as [|f b' bp' c' a ap ac|fm fp bb aa]; [destruct Hx| |].
    + cbn in Hx. destruct Hx as (-> & -> & ->). cbn [mf_updates] in Hu. fold k in Hu. rewrite HI in Hu.
      destruct (negb (b =? bp)); simpl in Hu; repeat (destruct Hu as [<-|Hu]; [cbn; auto|]); destruct Hu.
    + cbn in Hx. subst bb. cbn in Hu. destruct Hu as [<-|[]]; cbn; auto.
Qed.
Section List.
Variable l : list row.
Hypothesis LS : forall r, In r l -> listed r.
Hypothesis AM : forall r, In r l -> aimed r.
Hypothesis ND : NoDup l.
Lemma nth_prog : forall A (f : row -> list A) s u, In u (nth s (map f l) []) -> exists r, nth_error l s = Some r /\ In u (f r).
Proof.
  intros A f s u H. destruct (nth_error l s) as [r|] eqn:N.
  - exists r. split; auto. assert (X : nth_error (map f l) s = Some (f r)) by now rewrite nth_error_map, N. now rewrite (nth_error_nth _ _ [] X) in H.
  - apply nth_error_None in N. rewrite nth_overflow in H by now rewrite map_length. destruct H.
Qed.
Lemma at_eq : forall s t r, nth_error l s = Some r -> nth_error l t = Some r -> s = t.
Proof. intros s t r A B. rewrite NoDup_nth_error in ND. apply ND; [apply nth_error_Some; congruence|congruence]. Qed.
Theorem par_kernel : forall add m0 sched, finished (run_sched eqZZ add sched (start (kern_progs K L E cpl l) m0)) ->
  forall i, mem (run_sched eqZZ add sched (start (kern_progs K L E cpl l) m0)) i = run_seq eqZZ add (concat (kern_progs K L E cpl l)) m0 i.
Proof.
  intros add m0 sched F. apply par_result; auto. intros s t i N (u & Hu & Eu) (v & Hv & Ev). unfold kern_progs in *.
  apply nth_prog in Hu, Hv. destruct Hu as (r & Nr & Hu). destruct Hv as (r' & Nr' & Hv).
  assert (Lr : listed r) by (apply LS; eapply nth_error_In; eauto). assert (Lr' : listed r') by (apply LS; eapply nth_error_In; eauto).
  apply N. apply (at_eq s t r); auto. rewrite (own_apart r r' (fst i)); auto.
  - rewrite <- Eu. apply iter_own; auto. apply AM. eapply nth_error_In; eauto.
  - rewrite <- Ev. apply iter_own; auto. apply AM. eapply nth_error_In; eauto.
Qed.
Theorem par_vec : forall phi add m0 sched, finished (run_sched Z.eq_dec add sched (start (vec_progs K L phi E cpl l) m0)) ->
  forall i, mem (run_sched Z.eq_dec add sched (start (vec_progs K L phi E cpl l) m0)) i = run_seq Z.eq_dec add (concat (vec_progs K L phi E cpl l)) m0 i.
Proof.
  intros phi add m0 sched F. apply par_result; auto. intros s t i N (u & Hu & Eu) (v & Hv & Ev). unfold vec_progs in *.
  apply nth_prog in Hu, Hv. destruct Hu as (r & Nr & Hu). destruct Hv as (r' & Nr' & Hv).
  assert (Lr : listed r) by (apply LS; eapply nth_error_In; eauto). assert (Lr' : listed r') by (apply LS; eapply nth_error_In; eauto).
  apply N. apply (at_eq s t r); auto. rewrite (own_apart r r' i); auto.
  - rewrite <- Eu. eapply mf_own; eauto. apply AM. eapply nth_error_In; eauto.
  - rewrite <- Ev. eapply mf_own; eauto. apply AM. eapply nth_error_In; eauto.
Qed.
(** the same updates as in Python *)
Lemma concat_flat : forall A B C (f : A -> list B) (g : B -> list C) (xs : list A), concat (map (fun r => flat_map g (f r)) xs) = flat_map g (flat_map f xs).
Proof. induction xs; cbn; auto. now rewrite flat_map_app, IHxs. Qed.
Lemma c_updates_eq : forall r x, listed r -> aimed r -> In x (c_iter K E cpl r) -> c_updates K L x = kh_updates K L x.
Proof.
  intros [[b bp] c] x H AIM Hx. destruct (num_cases _ H) as (_ & HI & _). cbn [r_num r_off] in *. cbn [c_iter] in Hx. destruct Hx as [<-|Hx].
  - cbn [c_updates kh_updates]. rewrite HI. destruct (b =? bp); reflexivity.
  - apply AIM in Hx. destruct x; [destruct Hx| |]; reflexivity.
Qed.
Lemma kern_concat : concat (kern_progs K L E cpl l) = flat_map (kh_updates K L) (flat_map (c_iter K E cpl) l).
Proof.
  unfold kern_progs. rewrite <- concat_flat. f_equal. apply map_ext_in. intros r Hr. rewrite !flat_map_concat_map. f_equal. apply map_ext_in.
  intros x Hx. apply (c_updates_eq r); auto.
Qed.
Lemma vec_concat : forall phi, concat (vec_progs K L phi E cpl l) = flat_map (mf_updates K L phi) (flat_map (c_iter K E cpl) l).
Proof. intros phi. unfold vec_progs. apply concat_flat. Qed.
End List.
End Iter.
End Par.
