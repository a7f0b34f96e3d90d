(** The numbering of density-matrix elements with 'ssq' indexing (indexing.py 760-771, 945-987, 1146-1184). *)
From Coq Require Import String List Arith Lia ZArith Bool Permutation.
From Verif Require Import Base Bits Indexing IndexingProofs RemoveProofs Binom SsqProofs Qn
  PropIndexing DMIndex DMIndexProofs DMReach.
Import ListNotations.
Open Scope nat_scope.
Local Notation length := List.length.

(** ** What a log of add_elem calls without repetition gives *)
Section Generic.
Variables (kd : kind) (ixs : ix) (qn : nat -> option (list Z)) (qi : list Z -> option nat).
Variables (nc : nat) (dict0 : list nat) (L : list (list nat)).
Hypothesis SO : states_ok nc (length dict0) L.
Let dm := set_statesdm' kd ixs qn qi nc dict0 L.
Hypothesis log_states : forall e, In e (dm_log dm) -> In (e_b e) (nth (e_ch e) L []) /\ In (e_bp e) (nth (e_ch e) L []).
Hypothesis log_pauli_diag : forall e, kd = KPauli -> In e (dm_log dm) -> e_bp e = e_b e.
Hypothesis log_unique : forall e e', In e (dm_log dm) -> In e' (dm_log dm) ->
  e_b e = e_b e' -> e_bp e = e_bp e' -> e_ch e = e_ch e' -> e = e'.
Hypothesis dict_nodup : NoDup (map e_cnt (filter e_dict (dm_log dm))).

Lemma gen_slot_eq : forall e, In e (dm_log dm) -> ev_slot dm e = slot0 kd nc dict0 L (e_b e) (e_bp e) (e_ch e).
Proof.
  intros e H. unfold ev_slot. apply dm0_slot_eq; auto. destruct (log_states e H) as [H1 _]. destruct (so_in _ _ _ _ _ SO H1). auto.
Qed.
Lemma gen_slot_unique : forall e b bp c, In e (dm_log dm) -> In b (nth c L []) -> In bp (nth c L []) ->
  (kd = KPauli -> bp = b) -> ev_slot dm e = dm0_slot dm b bp c -> e_b e = b /\ e_bp e = bp /\ e_ch e = c.
Proof.
  intros e b bp c H Hb Hbp HP E. destruct (log_states e H) as [H1 H2]. rewrite gen_slot_eq in E by auto.
  unfold dm in E. rewrite dm0_slot_eq in E by (auto; destruct (so_in _ _ _ _ _ SO Hb); auto).
  eapply slot0_inj; eauto; try (intros Hk; split; [apply log_pauli_diag; auto|auto]).
Qed.
Lemma gen_entered : forall e, In e (dm_log dm) ->
  get_ind_dm0 dm (e_b e) (e_bp e) (e_ch e) = Some (Z.of_nat (e_cnt e)) /\
  get_bool_dm0 dm (e_b e) (e_bp e) (e_ch e) = Some (e_dict e) /\
  get_conj_dm0 dm (e_b e) (e_bp e) (e_ch e) = Some (e_conj e).
Proof.
  intros e H. destruct (log_states e H) as [H1 H2].
  assert (Hs : dm0_slot dm (e_b e) (e_bp e) (e_ch e) < dm0_size dm).
  { fold (ev_slot dm e). rewrite gen_slot_eq by auto. apply slot0_bound; auto. }
  assert (U : forall e', In e' (dm_log dm) -> ev_slot dm e' = dm0_slot dm (e_b e) (e_bp e) (e_ch e) -> e' = e).
  { intros e' H' E. destruct (gen_slot_unique e' (e_b e) (e_bp e) (e_ch e)) as (A & B & C); auto.
    }
  unfold get_ind_dm0, get_bool_dm0, get_conj_dm0, mapdm0, booldm0, conjdm0.
  split; [|split]; apply (writes_at _ (ev_slot dm)); try (rewrite repeat_length; auto); eauto;
    intros e' He' E; rewrite (U e' He' E); reflexivity.
Qed.
Lemma gen_absent : forall b bp c, In b (nth c L []) -> In bp (nth c L []) -> (kd = KPauli -> bp = b) ->
  (forall e, In e (dm_log dm) -> ~ (e_b e = b /\ e_bp e = bp /\ e_ch e = c)) ->
  get_ind_dm0 dm b bp c = Some (-1)%Z /\ get_bool_dm0 dm b bp c = Some false.
Proof.
  intros b bp c Hb Hbp HP HN. destruct (so_in _ _ _ _ _ SO Hb) as [Hc _].
  assert (Hs : dm0_slot dm b bp c < dm0_size dm) by (unfold dm; rewrite dm0_slot_eq by auto; apply slot0_bound; auto).
  unfold get_ind_dm0, get_bool_dm0, mapdm0, booldm0.
  split; (rewrite writes_other; [apply nth_error_repeat'; auto|]); intros e He E; apply (HN e He); apply gen_slot_unique; auto.
Qed.
Lemma gen_inddm0 : forall k b bp, dict_get Nat.eqb k (inddm0 dm) = Some (b, bp) <->
  exists e, In e (dm_log dm) /\ e_dict e = true /\ e_cnt e = k /\ e_b e = b /\ e_bp e = bp.
Proof.
  intros k b bp. unfold inddm0. rewrite inddm0_build. fold (dict_build nat (nat * nat) Nat.eqb
     (map (fun e => (e_cnt e, (e_b e, e_bp e))) (filter e_dict (dm_log dm)))).
  rewrite dict_build_get.
  - rewrite in_map_iff. split.
    + intros (e & E & H). apply filter_In in H. injection E as <- <- <-. exists e. tauto.
    + intros (e & H1 & H2 & <- & <- & <-). exists e. split; auto. apply filter_In. auto.
  - apply Nat.eqb_eq.
  - rewrite map_map. replace (map _ _) with (map e_cnt (filter e_dict (dm_log dm))) by (apply map_ext; auto). auto.
Qed.
End Generic.

(** the projections of a spin: -S, -S+2, ..., S *)
Definition projections (s : Z) : list Z := range2 (- s) (s + 1).
Lemma projections_cons : forall s, (0 <= s)%Z -> projections s = (- s)%Z :: range2 (- s + 2) (s + 1).
Proof.
  intros s Hs. unfold projections, range2. replace (Z.to_nat ((s + 1 - - s + 1) / 2)) with (S (Z.to_nat ((s + 1 - (- s + 2) + 1) / 2))).
  - cbn [seq map]. f_equal; [lia|]. rewrite <- seq_shift, map_map. apply map_ext. intros. lia.
  - replace (s + 1 - - s + 1)%Z with ((s + 1) * 2)%Z by lia. replace (s + 1 - (- s + 2) + 1)%Z with (s * 2)%Z by lia.
    rewrite !Z.div_mul by lia. lia.
Qed.
Lemma projections_low : forall s, (0 <= s)%Z -> In (- s)%Z (projections s).
Proof. intros. rewrite projections_cons by auto. now left. Qed.
Lemma range2_ge : forall lo hi x, In x (range2 lo hi) -> (lo <= x)%Z.
Proof. intros lo hi x H. unfold range2 in H. apply in_map_iff in H. destruct H as (k & <- & _). lia. Qed.
Lemma projections_nonneg : forall s x, In x (projections s) -> (0 <= s)%Z.
Proof.
  intros s x H. unfold projections, range2 in H. apply in_map_iff in H. destruct H as (k & _ & Hk). apply in_seq in Hk.
  assert (Z.to_nat ((s + 1 - - s + 1) / 2) > 0) by lia. replace (s + 1 - - s + 1)%Z with ((s + 1) * 2)%Z in H by lia. rewrite Z.div_mul in H by lia. lia.
Qed.

Section SsqNumbering.
Variables (kd : kind) (qn : nat -> option (list Z)) (qi : list Z -> option nat).
Variables (nc : nat) (dict0 : list nat) (L : list (list nat)).
Hypothesis SO : states_ok nc (length dict0) L.
Hypothesis QB : forall q k, qi q = Some k <-> qn k = Some q.
Hypothesis QS : forall c k, In k (nth c L []) -> exists sz s al, qn k = Some [Z.of_nat c; sz; s; al] /\ In sz (projections s).
(** with a state all states of its multiplet are considered *)
Hypothesis CLOSED : forall c k sz s al sz', In k (nth c L []) -> qn k = Some [Z.of_nat c; sz; s; al] -> In sz' (projections s) ->
  exists k', qn k' = Some [Z.of_nat c; sz'; s; al] /\ In k' (nth c L []).
Let dm := set_statesdm' kd IxSsq qn qi nc dict0 L.

Definition zsz (k : nat) : Z := qn_at qn k 1.
Definition zss (k : nat) : Z := qn_at qn k 2.
Definition zal (k : nat) : Z := qn_at qn k 3.
Lemma st_qn : forall c k, In k (nth c L []) -> qn k = Some [Z.of_nat c; zsz k; zss k; zal k] /\ In (zsz k) (projections (zss k)) /\ qn_at qn k 0 = Z.of_nat c.
Proof.
  intros c k Hk. destruct (QS c k Hk) as (sz & s & al & E & P). unfold zsz, zss, zal, qn_at. rewrite E. cbn. auto.
Qed.
Lemma st_pos : forall c k, In k (nth c L []) -> (0 <= zss k)%Z.
Proof. intros c k Hk. destruct (st_qn c k Hk) as (_ & P & _). exact (projections_nonneg _ _ P). Qed.
Definition at_sz (k : nat) (sz : Z) : nat := partner qn qi k sz.
Lemma at_spec : forall c k sz, In k (nth c L []) -> In sz (projections (zss k)) ->
  In (at_sz k sz) (nth c L []) /\ zsz (at_sz k sz) = sz /\ zss (at_sz k sz) = zss k /\ zal (at_sz k sz) = zal k.
Proof.
  intros c k sz Hk Hs. destruct (st_qn c k Hk) as (E & P & E0). destruct (CLOSED c k _ _ _ sz Hk E Hs) as (k' & E' & H').
  assert (X : at_sz k sz = k').
  { unfold at_sz, partner, qn_state. rewrite E0. change (qn_at qn k 2) with (zss k). change (qn_at qn k 3) with (zal k).
    apply QB in E'. now rewrite E'. }
  rewrite X. split; auto. unfold zsz, zss, zal, qn_at. rewrite E'. cbn. auto.
Qed.
Lemma st_eq : forall c k k', In k (nth c L []) -> In k' (nth c L []) -> zsz k = zsz k' -> zss k = zss k' -> zal k = zal k' -> k = k'.
Proof.
  intros c k k' Hk Hk' E1 E2 E3. destruct (st_qn c k Hk) as (E & _). destruct (st_qn c k' Hk') as (E' & _).
  rewrite E1, E2, E3 in E. apply QB in E, E'. congruence.
Qed.
Lemma at_self : forall c k, In k (nth c L []) -> at_sz k (zsz k) = k.
Proof.
  intros c k Hk. destruct (st_qn c k Hk) as (_ & P & _). destruct (at_spec c k (zsz k) Hk P) as (A & B & C & D). apply (st_eq c); auto.
Qed.
Definition lowest (k : nat) : bool := (zss k =? - zsz k)%Z.
Definition base (k : nat) : nat := at_sz k (- zss k)%Z.
Lemma base_spec : forall c k, In k (nth c L []) -> In (base k) (nth c L []) /\ lowest (base k) = true /\ zss (base k) = zss k /\ zal (base k) = zal k /\
  at_sz (base k) (zsz k) = k.
Proof.
  intros c k Hk. pose proof (st_pos c k Hk) as P0. destruct (st_qn c k Hk) as (_ & P & _).
  destruct (at_spec c k (- zss k)%Z Hk (projections_low _ P0)) as (A & B & C & D). fold (base k) in A, B, C, D.
  split; auto. split; [unfold lowest; rewrite B, C; apply Z.eqb_eq; lia|]. split; auto. split; auto.
  rewrite <- C in P. destruct (at_spec c (base k) (zsz k) A P) as (A' & B' & C' & D'). apply (st_eq c); auto; congruence.
Qed.
Lemma base_low : forall c k, In k (nth c L []) -> lowest k = true -> base k = k.
Proof. intros c k Hk Lk. unfold lowest in Lk. apply Z.eqb_eq in Lk. unfold base. replace (- zss k)%Z with (zsz k) by lia. apply (at_self c); auto. Qed.
Lemma low_sz : forall k, lowest k = true -> zsz k = (- zss k)%Z.
Proof. intros k H. apply Z.eqb_eq in H. lia. Qed.

Definition D : list (nat * nat) := filter (fun x => lowest (snd x)) (diag_items nc L).
Definition selp (x : nat * (nat * nat)) : bool :=
  let '(b, bp) := snd x in (zsz b =? zsz bp)%Z && (zss b =? zss bp)%Z && lowest b.
Definition O : list (nat * (nat * nat)) :=
  match kd with
  | KPauli => []
  | KDM => filter selp (flat_map (fun c => map (pair c) (combinations2 (nth c L []))) (seq 0 nc))
  | KDMc => filter selp (flat_map (fun c => map (pair c) (permutations2 (nth c L []))) (seq 0 nc))
  end.
Definition gd (k : nat) (x : nat * nat) : list ev :=
  let '(c, b) := x in
  mkEv k b b c true true :: map (fun sz => mkEv k (partner qn qi b sz) (partner qn qi b sz) c false true) (partner_sz qn b).
Definition go (k : nat) (x : nat * (nat * nat)) : list ev :=
  let '(c, (b, bp)) := x in
  match kd with
  | KDM => [mkEv k bp b c false false; mkEv k b bp c true true] ++
      flat_map (fun sz => [mkEv k (partner qn qi bp sz) (partner qn qi b sz) c false false; mkEv k (partner qn qi b sz) (partner qn qi bp sz) c false true])
        (partner_sz qn b)
  | _ => mkEv k b bp c true true :: map (fun sz => mkEv k (partner qn qi b sz) (partner qn qi bp sz) c false true) (partner_sz qn b)
  end.
Lemma diag_eq : diag_loop IxSsq qn qi nc L (0, []) = (length D, emit gd 0 D).
Proof.
  unfold diag_loop. rewrite (fold_flatten nat nat (nat * list ev) (fun st c b => diag_step IxSsq qn qi c st b) (fun c => nth c L []) (seq 0 nc)).
  fold (diag_items nc L).
  rewrite (fold_left_ext2 _ _ _ (fun (st : nat * list ev) x =>
     let '(c, evs) := st in if (fun x => lowest (snd x)) x then (S c, evs ++ gd c x) else (c, evs))).
  - etransitivity; [apply (emit_loop _ (fun x => lowest (snd x)) gd)|]. reflexivity.
  - intros [k evs] [c b]. unfold diag_step, gd, lowest, zss, zsz. cbn [fst snd]. reflexivity.
Qed.
Lemma off_eq : forall k evs, off_loop kd IxSsq qn qi nc L (k, evs) = (k + length O, evs ++ emit go k O).
Proof.
  intros k evs. unfold off_loop, O, go. destruct kd.
  - simpl. now rewrite Nat.add_0_r, app_nil_r.
  - rewrite (fold_flatten nat (nat * nat) (nat * list ev) (fun st c p => off_step_dm IxSsq qn qi c st p)
             (fun c => combinations2 (nth c L [])) (seq 0 nc)).
    etransitivity; [|apply (emit_loop _ selp)]. apply fold_left_ext2.
    intros [j es] [c [b bp]]. unfold off_step_dm, selp, lowest, zss, zsz. cbn [fst snd].
    destruct ((qn_at qn b 1 =? qn_at qn bp 1)%Z && (qn_at qn b 2 =? qn_at qn bp 2)%Z); reflexivity.
  - rewrite (fold_flatten nat (nat * nat) (nat * list ev) (fun st c p => off_step_dmc IxSsq qn qi c st p)
             (fun c => permutations2 (nth c L [])) (seq 0 nc)).
    etransitivity; [|apply (emit_loop _ selp)]. apply fold_left_ext2.
    intros [j es] [c [b bp]]. unfold off_step_dmc, selp, lowest, zss, zsz. cbn [fst snd].
    destruct ((qn_at qn b 1 =? qn_at qn bp 1)%Z && (qn_at qn b 2 =? qn_at qn bp 2)%Z); reflexivity.
Qed.
Lemma ss_npauli : dm_npauli dm = length D.
Proof.
  destruct (dm_fields kd IxSsq qn qi nc dict0 L) as (_ & _ & _ & _ & _ & _ & _ & _ & _ & _ & E & _). fold dm in E. now rewrite E, diag_eq.
Qed.
Lemma ss_ndm0 : dm_ndm0 dm = length D + length O.
Proof.
  destruct (dm_fields kd IxSsq qn qi nc dict0 L) as (_ & _ & _ & _ & _ & _ & _ & _ & _ & _ & _ & E & _). fold dm in E. now rewrite E, diag_eq, off_eq.
Qed.
Lemma ss_log : dm_log dm = emit gd 0 D ++ emit go (length D) O.
Proof.
  destruct (dm_fields kd IxSsq qn qi nc dict0 L) as (_ & _ & _ & _ & _ & _ & _ & _ & _ & _ & _ & _ & E & _). fold dm in E. now rewrite E, diag_eq, off_eq.
Qed.

Lemma sD_in : forall c b, In (c, b) D <-> In b (nth c L []) /\ lowest b = true.
Proof. intros c b. unfold D. rewrite filter_In. cbn [snd]. rewrite (D_in nc dict0 L SO). reflexivity. Qed.
Lemma sD_nodup : NoDup D.
Proof. apply filter_NoDup. apply (D_nodup nc dict0 L SO). Qed.
Lemma selp_iff : forall c b bp, selp (c, (b, bp)) = true <-> zsz b = zsz bp /\ zss b = zss bp /\ lowest b = true.
Proof. intros. unfold selp. cbn [snd]. rewrite !andb_true_iff, !Z.eqb_eq. tauto. Qed.
Lemma sO_in : forall c b bp, In (c, (b, bp)) O ->
  In b (nth c L []) /\ In bp (nth c L []) /\ b <> bp /\ zsz b = zsz bp /\ zss b = zss bp /\ lowest b = true /\ lowest bp = true.
Proof.
  intros c b bp H.
  assert (W : In b (nth c L []) /\ In bp (nth c L []) /\ b <> bp /\ selp (c, (b, bp)) = true).
  { unfold O in H. destruct kd; [destruct H| |]; apply filter_In in H; destruct H as [H Hs];
    apply in_flat_map in H; destruct H as (c' & Hc & H); apply in_map_iff in H; destruct H as (x & E & H); injection E as -> ->.
    - apply combinations2_in in H; [tauto|]. eapply so_block_nodup; eauto.
    - apply permutations2_in in H; [tauto|]. eapply so_block_nodup; eauto. }
  destruct W as (W1 & W2 & W3 & W4). apply selp_iff in W4. destruct W4 as (A & B & C). repeat split; auto.
  unfold lowest in *. now rewrite <- A, <- B.
Qed.
Lemma sO_dmc : forall c b bp, kd = KDMc -> In b (nth c L []) -> In bp (nth c L []) -> b <> bp -> selp (c, (b, bp)) = true -> In (c, (b, bp)) O.
Proof.
  intros c b bp Hk Hb Hbp Hne Hs. destruct (so_in _ _ _ _ _ SO Hb) as [Hc _]. unfold O. rewrite Hk.
  apply filter_In. split; auto. apply in_flat_map. exists c. split; [apply in_seq; lia|].
  apply in_map_iff. exists (b, bp). split; auto. apply permutations2_in; auto. eapply so_block_nodup; eauto.
Qed.
Lemma sO_dm : forall c b bp, kd = KDM -> In b (nth c L []) -> In bp (nth c L []) -> b <> bp -> selp (c, (b, bp)) = true ->
  In (c, (b, bp)) O \/ In (c, (bp, b)) O.
Proof.
  intros c b bp Hk Hb Hbp Hne Hs. destruct (so_in _ _ _ _ _ SO Hb) as [Hc _]. unfold O. rewrite Hk.
  assert (Hs' : selp (c, (bp, b)) = true).
  { apply selp_iff in Hs. apply selp_iff. destruct Hs as (A & B & C). repeat split; auto. unfold lowest in *. now rewrite <- A, <- B. }
  destruct (combinations2_in (nth c L []) b bp (so_block_nodup _ _ _ c SO)) as (_ & B & _).
  destruct (B Hb Hbp Hne); [left|right]; apply filter_In; (split; [|auto]); apply in_flat_map; exists c;
    (split; [apply in_seq; lia|]); apply in_map_iff; eauto.
Qed.
Lemma sO_antisym : forall c b bp, kd = KDM -> In (c, (b, bp)) O -> ~ In (c, (bp, b)) O.
Proof.
  intros c b bp Hk H H'. unfold O in *. rewrite Hk in *. apply filter_In in H, H'. destruct H as [H _]. destruct H' as [H' _].
  apply in_flat_map in H, H'. destruct H as (c1 & _ & H). destruct H' as (c2 & _ & H').
  apply in_map_iff in H, H'. destruct H as (x & E & H). destruct H' as (y & E' & H'). injection E as -> ->. injection E' as -> ->.
  apply (combinations2_in (nth c L []) b bp (so_block_nodup _ _ _ c SO)). auto.
Qed.
Lemma sO_nodup : NoDup O.
Proof.
  unfold O. destruct kd; [constructor| |]; apply filter_NoDup; apply NoDup_flat_map; try apply seq_NoDup.
  - intros c _. apply FinFun.Injective_map_NoDup; [intros x y E; now injection E|]. apply combinations2_nodup. eapply so_block_nodup; eauto.
  - intros x y p _ _ H1 H2. apply in_map_iff in H1, H2. destruct H1 as (? & <- & _). destruct H2 as (? & E & _). now injection E.
  - intros c _. apply FinFun.Injective_map_NoDup; [intros x y E; now injection E|]. apply permutations2_nodup. eapply so_block_nodup; eauto.
  - intros x y p _ _ H1 H2. apply in_map_iff in H1, H2. destruct H1 as (? & <- & _). destruct H2 as (? & E & _). now injection E.
Qed.

(** the add_elem calls, one for every projection *)
Lemma proj_split : forall c b sz, In b (nth c L []) -> lowest b = true ->
  (In sz (projections (zss b)) <-> sz = (- zss b)%Z \/ In sz (partner_sz qn b)).
Proof.
  intros c b sz Hb Lb. pose proof (st_pos c b Hb) as P. rewrite projections_cons by auto. unfold partner_sz.
  change (qn_at qn b 1) with (zsz b). change (qn_at qn b 2) with (zss b). rewrite (low_sz b Lb). cbn. intuition.
Qed.
Lemma partner_above : forall b sz, lowest b = true -> In sz (partner_sz qn b) -> (sz =? - zss b)%Z = false.
Proof.
  intros b sz Lb H. unfold partner_sz in H. change (qn_at qn b 1) with (zsz b) in H. rewrite (low_sz b Lb) in H. apply range2_ge in H. apply Z.eqb_neq. lia.
Qed.
Lemma at_low : forall c b, In b (nth c L []) -> lowest b = true -> at_sz b (- zss b)%Z = b.
Proof. intros c b Hb Lb. rewrite <- (low_sz b Lb). apply (at_self c); auto. Qed.

Lemma slog_in : forall e, In e (dm_log dm) <->
  (exists j c b sz, nth_error D j = Some (c, b) /\ In sz (projections (zss b)) /\
     e = mkEv j (at_sz b sz) (at_sz b sz) c (sz =? - zss b)%Z true) \/
  (exists j c b bp sz, nth_error O j = Some (c, (b, bp)) /\ In sz (projections (zss b)) /\
     (e = mkEv (length D + j) (at_sz b sz) (at_sz bp sz) c (sz =? - zss b)%Z true \/
      (kd = KDM /\ e = mkEv (length D + j) (at_sz bp sz) (at_sz b sz) c false false))).
Proof.
  intros e. rewrite ss_log, in_app_iff, !emit_in. split.
  - intros [(j & [c b] & H & He)|(j & [c [b bp]] & H & He)].
    + left. pose proof (nth_error_In _ _ H) as HD. apply sD_in in HD. destruct HD as (Hb & Lb). cbn [gd Nat.add] in He. destruct He as [<-|He].
      * exists j, c, b, (- zss b)%Z. split; auto. split; [apply projections_low, (st_pos c b); auto|].
        now rewrite (at_low c b Hb Lb), Z.eqb_refl.
      * apply in_map_iff in He. destruct He as (sz & <- & Hs). exists j, c, b, sz. split; auto.
        split; [apply (proj_split c); auto|]. now rewrite (partner_above b sz Lb Hs).
    + right. pose proof (nth_error_In _ _ H) as HO. apply sO_in in HO. destruct HO as (Hb & Hbp & Hne & E1 & E2 & Lb & Lbp).
      assert (PL : In (- zss b)%Z (projections (zss b))) by (apply projections_low, (st_pos c b); auto).
      assert (A1 : at_sz b (- zss b)%Z = b) by (apply (at_low c); auto).
      assert (A2 : at_sz bp (- zss b)%Z = bp) by (rewrite E2; apply (at_low c); auto).
      assert (DM : forall sz, In sz (partner_sz qn b) -> In sz (projections (zss b)) /\ (sz =? - zss b)%Z = false).
      { intros sz Hs. split; [apply (proj_split c); auto|apply partner_above; auto]. }
      unfold go in He. destruct kd eqn:Ek.
      * destruct He as [<-|He].
        -- exists j, c, b, bp, (- zss b)%Z. split; auto. split; auto. left. now rewrite A1, A2, Z.eqb_refl.
        -- apply in_map_iff in He. destruct He as (sz & <- & Hs). destruct (DM sz Hs) as (X & Y). exists j, c, b, bp, sz. split; auto. split; auto. left. now rewrite Y.
      * apply in_app_or in He. destruct He as [[<-|[<-|[]]]|He].
        -- exists j, c, b, bp, (- zss b)%Z. split; auto. split; auto. right. split; auto. now rewrite A1, A2.
        -- exists j, c, b, bp, (- zss b)%Z. split; auto. split; auto. left. now rewrite A1, A2, Z.eqb_refl.
        -- apply in_flat_map in He. destruct He as (sz & Hs & He). destruct (DM sz Hs) as (X & Y). exists j, c, b, bp, sz. split; auto. split; auto.
           destruct He as [<-|[<-|[]]]; [right; auto|left; now rewrite Y].
      * destruct He as [<-|He].
        -- exists j, c, b, bp, (- zss b)%Z. split; auto. split; auto. left. now rewrite A1, A2, Z.eqb_refl.
        -- apply in_map_iff in He. destruct He as (sz & <- & Hs). destruct (DM sz Hs) as (X & Y). exists j, c, b, bp, sz. split; auto. split; auto. left. now rewrite Y.
  - intros [(j & c & b & sz & H & Hs & ->)|(j & c & b & bp & sz & H & Hs & He)].
    + left. exists j, (c, b). split; auto. pose proof (nth_error_In _ _ H) as HD. apply sD_in in HD. destruct HD as (Hb & Lb).
      apply (proj_split c b sz Hb Lb) in Hs. cbn [gd Nat.add]. destruct Hs as [->|Hs].
      * left. now rewrite (at_low c b Hb Lb), Z.eqb_refl.
      * right. apply in_map_iff. exists sz. split; auto. now rewrite (partner_above b sz Lb Hs).
    + right. exists j, (c, (b, bp)). split; auto. pose proof (nth_error_In _ _ H) as HO. apply sO_in in HO. destruct HO as (Hb & Hbp & Hne & E1 & E2 & Lb & Lbp).
      assert (A1 : at_sz b (- zss b)%Z = b) by (apply (at_low c); auto).
      assert (A2 : at_sz bp (- zss b)%Z = bp) by (rewrite E2; apply (at_low c); auto).
      apply (proj_split c b sz Hb Lb) in Hs. unfold go. destruct He as [->|[Hk ->]]; destruct Hs as [->|Hs].
      * rewrite A1, A2, Z.eqb_refl. destruct kd; cbn; auto.
      * rewrite (partner_above b sz Lb Hs). destruct kd; [right; apply in_map_iff; eauto| |right; apply in_map_iff; eauto].
        apply in_or_app. right. apply in_flat_map. exists sz. split; auto. right. left. reflexivity.
      * rewrite A1, A2, Hk. cbn. auto.
      * rewrite Hk. apply in_or_app. right. apply in_flat_map. exists sz. split; auto. left. reflexivity.
Qed.
Lemma slog_states : forall e, In e (dm_log dm) -> In (e_b e) (nth (e_ch e) L []) /\ In (e_bp e) (nth (e_ch e) L []).
Proof.
  intros e H. apply slog_in in H. destruct H as [(j & c & b & sz & H & Hs & ->)|(j & c & b & bp & sz & H & Hs & He)].
  - apply nth_error_In, sD_in in H. destruct H as (Hb & _). destruct (at_spec c b sz Hb Hs) as (A & _). cbn. auto.
  - apply nth_error_In, sO_in in H. destruct H as (Hb & Hbp & _ & _ & E2 & _). destruct (at_spec c b sz Hb Hs) as (A & _).
    rewrite E2 in Hs. destruct (at_spec c bp sz Hbp Hs) as (A' & _). destruct He as [->|[_ ->]]; cbn; auto.
Qed.
Lemma slog_pauli : forall e, kd = KPauli -> In e (dm_log dm) -> e_bp e = e_b e.
Proof.
  intros e Hk H. apply slog_in in H. destruct H as [(j & c & b & sz & H & Hs & ->)|(j & c & b & bp & sz & H & Hs & He)]; auto.
  unfold O in H. rewrite Hk in H. destruct j; discriminate.
Qed.
(** equal partners at equal charge come from equal lowest states *)
Lemma at_inj : forall c b b' sz sz', In b (nth c L []) -> In b' (nth c L []) -> lowest b = true -> lowest b' = true ->
  In sz (projections (zss b)) -> In sz' (projections (zss b')) -> at_sz b sz = at_sz b' sz' -> b = b' /\ sz = sz'.
Proof.
  intros c b b' sz sz' Hb Hb' Lb Lb' Hs Hs' E. destruct (at_spec c b sz Hb Hs) as (_ & B & C & D0). destruct (at_spec c b' sz' Hb' Hs') as (_ & B' & C' & D0').
  rewrite E in B, C, D0. assert (zss b = zss b') by congruence. split; [|congruence].
  apply (st_eq c); auto; [rewrite (low_sz b Lb), (low_sz b' Lb')|]; congruence.
Qed.
Lemma slog_unique : forall e e', In e (dm_log dm) -> In e' (dm_log dm) -> e_b e = e_b e' -> e_bp e = e_bp e' -> e_ch e = e_ch e' -> e = e'.
Proof.
  intros e e' H H' E1 E2 E3. apply slog_in in H, H'.
  destruct H as [(j & c & b & sz & H & Hs & ->)|(j & c & b & bp & sz & H & Hs & He)];
  destruct H' as [(j' & c' & b' & sz' & H' & Hs' & ->)|(j' & c' & b' & bp' & sz' & H' & Hs' & He')]; cbn in *.
  - subst c'. pose proof (nth_error_In _ _ H) as HD. apply sD_in in HD. pose proof (nth_error_In _ _ H') as HD'. apply sD_in in HD'.
    destruct (at_inj c b b' sz sz') as [-> ->]; try tauto. f_equal. apply (nth_error_nodup _ D j j' (c, b') sD_nodup); auto.
  - exfalso. pose proof (nth_error_In _ _ H') as HO. apply sO_in in HO. destruct HO as (Hb & Hbp & Hne & _ & E & Lb & Lbp).
    apply Hne. destruct He' as [->|[_ ->]]; cbn in *; subst c'; rewrite E in Hs'; apply (at_inj c b' bp' sz' sz'); rewrite ?E; auto; congruence.
  - exfalso. pose proof (nth_error_In _ _ H) as HO. apply sO_in in HO. destruct HO as (Hb & Hbp & Hne & _ & E & Lb & Lbp).
    apply Hne. destruct He as [->|[_ ->]]; cbn in *; subst c'; rewrite E in Hs; apply (at_inj c b bp sz sz); rewrite ?E; auto; congruence.
  - pose proof (nth_error_In _ _ H) as HO. pose proof HO as HO0. apply sO_in in HO. destruct HO as (Hb & Hbp & Hne & _ & E & Lb & Lbp).
    pose proof (nth_error_In _ _ H') as HO'. pose proof HO' as HO0'. apply sO_in in HO'. destruct HO' as (Hb' & Hbp' & Hne' & _ & E' & Lb' & Lbp').
    assert (Hs2 : In sz (projections (zss bp))) by (rewrite <- E; auto). assert (Hs2' : In sz' (projections (zss bp'))) by (rewrite <- E'; auto).
    destruct He as [->|[Hk ->]]; destruct He' as [->|[Hk' ->]]; cbn in *; subst c'.
    + destruct (at_inj c b b' sz sz') as [-> ->]; auto. destruct (at_inj c bp bp' sz' sz') as [-> _]; auto.
      f_equal. f_equal. apply (nth_error_nodup _ O j j' _ sO_nodup H H').
    + exfalso. destruct (at_inj c b bp' sz sz') as [-> ->]; auto. destruct (at_inj c bp b' sz' sz') as [-> _]; auto. apply (sO_antisym _ _ _ Hk' HO0 HO0').
    + exfalso. destruct (at_inj c b bp' sz sz') as [-> ->]; auto. destruct (at_inj c bp b' sz' sz') as [-> _]; auto. apply (sO_antisym _ _ _ Hk HO0 HO0').
    + destruct (at_inj c b b' sz sz') as [-> ->]; auto. destruct (at_inj c bp bp' sz' sz') as [-> _]; auto.
      f_equal. f_equal. apply (nth_error_nodup _ O j j' _ sO_nodup H H').
Qed.
Lemma sdict_counters : map e_cnt (filter e_dict (dm_log dm)) = seq 0 (length D + length O).
Proof.
  assert (F0 : forall X (f : X -> ev) l, (forall x, e_dict (f x) = false) -> filter e_dict (map f l) = []).
  { induction l; intros H; cbn; auto. rewrite H. auto. }
  rewrite ss_log, filter_app, map_app, seq_app. f_equal; apply emit_dict_cnt.
  - intros j [c b]. cbn [gd filter e_dict]. rewrite F0; auto.
  - intros j [c [b bp]]. unfold go. destruct kd; [cbn [filter e_dict]; rewrite F0; auto| |cbn [filter e_dict]; rewrite F0; auto].
    cbn [app filter e_dict]. assert (Z0 : forall l, filter e_dict (flat_map (fun sz => [mkEv j (partner qn qi bp sz) (partner qn qi b sz) c false false;
      mkEv j (partner qn qi b sz) (partner qn qi bp sz) c false true]) l) = []) by (induction l; auto). now rewrite Z0.
Qed.
Lemma snodup : NoDup (map e_cnt (filter e_dict (dm_log dm))).
Proof. rewrite sdict_counters. apply seq_NoDup. Qed.

Definition s_entered := gen_entered kd IxSsq qn qi nc dict0 L SO slog_states slog_pauli slog_unique.
Definition s_absent := gen_absent kd IxSsq qn qi nc dict0 L SO slog_states slog_pauli.
Definition s_inddm0 := gen_inddm0 kd IxSsq qn qi nc dict0 L snodup.

(** ** the numbers *)
Definition mult (b b' : nat) : Prop := zss b = zss b' /\ zal b = zal b'.
Lemma mult_base : forall c b b', In b (nth c L []) -> In b' (nth c L []) -> (mult b b' <-> base b = base b').
Proof.
  intros c b b' Hb Hb'. destruct (base_spec c b Hb) as (A & B & C & E & F). destruct (base_spec c b' Hb') as (A' & B' & C' & E' & F').
  split.
  - intros (M1 & M2). apply (st_eq c); auto; [rewrite (low_sz _ B), (low_sz _ B')| |]; congruence.
  - intros X. split; congruence.
Qed.
Lemma num_of_diag : forall c b, In b (nth c L []) -> exists k, nth_error D k = Some (c, base b) /\ k < dm_npauli dm /\
  get_ind_dm0 dm b b c = Some (Z.of_nat k) /\ get_bool_dm0 dm b b c = Some (lowest b) /\ get_conj_dm0 dm b b c = Some true.
Proof.
  intros c b Hb. destruct (base_spec c b Hb) as (A & B & C & E & F). destruct (st_qn c b Hb) as (_ & P & _). rewrite <- C in P.
  assert (HD : In (c, base b) D) by (apply sD_in; auto). apply In_nth_error in HD. destruct HD as (k & Hk). exists k. split; auto.
  split; [rewrite ss_npauli; apply nth_error_Some; congruence|].
  assert (HE : In (mkEv k b b c (zsz b =? - zss (base b))%Z true) (dm_log dm)).
  { apply slog_in. left. exists k, c, (base b), (zsz b). rewrite F. auto. }
  destruct (s_entered _ HE) as (X & Y & Z0). cbn in X, Y, Z0. split; auto. split; auto. etransitivity; [exact Y|]. f_equal. rewrite C. unfold lowest.
  destruct (Z.eqb_spec (zsz b) (- zss b)), (Z.eqb_spec (zss b) (- zsz b)); auto; lia.
Qed.
(** a coherence of a multiplet pair *)
Definition coh (b bp : nat) : Prop := zsz b = zsz bp /\ zss b = zss bp.
Lemma base_ne : forall c b bp, In b (nth c L []) -> In bp (nth c L []) -> coh b bp -> b <> bp ->
  base b <> base bp /\ selp (c, (base b, base bp)) = true.
Proof.
  intros c b bp Hb Hbp (E1 & E2) N. destruct (base_spec c b Hb) as (A & B & C & E & F). destruct (base_spec c bp Hbp) as (A' & B' & C' & E' & F').
  split.
  - intros X. apply N. rewrite <- F, <- F', X, E1. reflexivity.
  - apply selp_iff. rewrite (low_sz _ B), (low_sz _ B'), C, C', E2. auto.
Qed.
Lemma num_of_off : forall c b bp k, In b (nth c L []) -> In bp (nth c L []) -> coh b bp -> nth_error O k = Some (c, (base b, base bp)) ->
  let num := length D + k in
  dm_npauli dm <= num < dm_ndm0 dm /\
  get_ind_dm0 dm b bp c = Some (Z.of_nat num) /\ get_bool_dm0 dm b bp c = Some (lowest b) /\ get_conj_dm0 dm b bp c = Some true /\
  (kd = KDM -> get_ind_dm0 dm bp b c = Some (Z.of_nat num) /\ get_bool_dm0 dm bp b c = Some false /\ get_conj_dm0 dm bp b c = Some false).
Proof.
  intros c b bp k Hb Hbp (E1 & E2) Hk num. destruct (base_spec c b Hb) as (A & B & C & E & F). destruct (base_spec c bp Hbp) as (A' & B' & C' & E' & F').
  destruct (st_qn c b Hb) as (_ & P & _). rewrite <- C in P.
  split; [rewrite ss_npauli, ss_ndm0; assert (k < length O) by (apply nth_error_Some; congruence); unfold num; lia|].
  assert (HE : In (mkEv num b bp c (zsz b =? - zss (base b))%Z true) (dm_log dm)).
  { apply slog_in. right. exists k, c, (base b), (base bp), (zsz b). split; auto. split; auto. left. rewrite F, E1, F'. rewrite <- E1. reflexivity. }
  destruct (s_entered _ HE) as (X & Y & Z0). cbn in X, Y, Z0. split; auto. split.
  { etransitivity; [exact Y|]. f_equal. rewrite C. unfold lowest. destruct (Z.eqb_spec (zsz b) (- zss b)), (Z.eqb_spec (zss b) (- zsz b)); auto; lia. }
  split; auto. intros Ek.
  assert (HE' : In (mkEv num bp b c false false) (dm_log dm)).
  { apply slog_in. right. exists k, c, (base b), (base bp), (zsz b). split; auto. split; auto. right. split; auto. rewrite F, E1, F'. reflexivity. }
  destruct (s_entered _ HE') as (X' & Y' & Z0'). cbn in X', Y', Z0'. auto.
Qed.
Lemma num_off_absent : forall c b bp, In b (nth c L []) -> In bp (nth c L []) -> b <> bp -> kd <> KPauli -> ~ coh b bp ->
  get_ind_dm0 dm b bp c = Some (-1)%Z /\ get_bool_dm0 dm b bp c = Some false.
Proof.
  intros c b bp Hb Hbp N Hk NC. apply s_absent; auto; [intros X; contradiction|]. intros e He (X & Y & Z0). apply slog_in in He.
  destruct He as [(j & c' & b0 & sz & H & Hs & ->)|(j & c' & b0 & bp0 & sz & H & Hs & He)]; [cbn in *; congruence|].
  apply nth_error_In, sO_in in H. destruct H as (H1 & H2 & H3 & H4 & H5 & H6 & H7). destruct (at_spec c' b0 sz H1 Hs) as (A & B & C & _).
  rewrite H5 in Hs. destruct (at_spec c' bp0 sz H2 Hs) as (A' & B' & C' & _). apply NC.
  destruct He as [->|[_ ->]]; cbn in *; subst b bp; unfold coh; split; congruence.
Qed.
Definition O_tag (c b bp j : nat) (v : bool) : Prop :=
  if v then nth_error O j = Some (c, (base b, base bp)) else kd = KDM /\ nth_error O j = Some (c, (base bp, base b)).
Lemma coh_sym : forall b bp, coh b bp -> coh bp b.
Proof. intros b bp (A & B). split; auto. Qed.
Lemma coh_low : forall b bp, coh b bp -> lowest bp = lowest b.
Proof. intros b bp (A & B). unfold lowest. now rewrite A, B. Qed.
Lemma off_tag : forall c b bp, kd <> KPauli -> In b (nth c L []) -> In bp (nth c L []) -> coh b bp -> b <> bp ->
  exists j v, O_tag c b bp j v.
Proof.
  intros c b bp Hk Hb Hbp Hc N. destruct (base_ne c b bp Hb Hbp Hc N) as (N1 & S1).
  destruct (base_spec c b Hb) as (A & _). destruct (base_spec c bp Hbp) as (A' & _). destruct kd eqn:Ek; [congruence| |].
  - destruct (sO_dm c (base b) (base bp) Ek A A' N1 S1) as [H|H]; apply In_nth_error in H; destruct H as (j & H).
    + exists j, true. exact H.
    + exists j, false. split; auto.
  - assert (H : In (c, (base b, base bp)) O) by (apply sO_dmc; auto). apply In_nth_error in H. destruct H as (j & H). exists j, true. exact H.
Qed.
Lemma off_tag_vals : forall c b bp j v, In b (nth c L []) -> In bp (nth c L []) -> coh b bp -> O_tag c b bp j v ->
  dm_npauli dm <= length D + j < dm_ndm0 dm /\ get_ind_dm0 dm b bp c = Some (Z.of_nat (length D + j)) /\ get_bool_dm0 dm b bp c = Some (lowest b && v) /\ get_conj_dm0 dm b bp c = Some v.
Proof.
  intros c b bp j [|] Hb Hbp Hc T.
  - destruct (num_of_off c b bp j Hb Hbp Hc T) as (X & Y & Z0 & W & _). rewrite andb_true_r. auto.
  - destruct T as (Hk & T). destruct (num_of_off c bp b j Hbp Hb (coh_sym _ _ Hc) T) as (X & _ & _ & _ & Y).
    destruct (Y Hk) as (Y1 & Y2 & Y3). rewrite andb_false_r. auto.
Qed.
Lemma tag_flip : forall c b bp j v, kd = KDM -> O_tag c b bp j v -> O_tag c bp b j (negb v).
Proof. intros c b bp j [|] Hk T; cbn in *; [split; auto|tauto]. Qed.
(** equal numbers, equal pairs of multiplets *)
Lemma off_tag_inj : forall c b bp j v c' b' bp' v',
  In b (nth c L []) -> In bp (nth c L []) -> In b' (nth c' L []) -> In bp' (nth c' L []) ->
  O_tag c b bp j v -> O_tag c' b' bp' j v' ->
  c = c' /\ (if Bool.eqb v v' then mult b b' /\ mult bp bp' else kd = KDM /\ mult b bp' /\ mult bp b').
Proof.
  intros c b bp j v c' b' bp' v' Hb Hbp Hb' Hbp' T T'.
  assert (Ec : c = c').
  { destruct v, v'; cbn in T, T'; try destruct T as (? & T); try destruct T' as (? & T'); rewrite T in T'; now injection T'. }
  subst c'. split; auto. destruct v, v'; cbn [Bool.eqb O_tag] in *; try destruct T as (Hk & T); try destruct T' as (Hk' & T'); rewrite T in T'; injection T' as E1 E2;
    try (split; auto); try split; apply (mult_base c); auto.
Qed.
Lemma off_tag_same : forall c b bp j v b' bp', In b (nth c L []) -> In bp (nth c L []) -> In b' (nth c L []) -> In bp' (nth c L []) ->
  O_tag c b bp j v -> mult b b' -> mult bp bp' -> O_tag c b' bp' j v.
Proof.
  intros c b bp j v b' bp' Hb Hbp Hb' Hbp' T M1 M2. apply (mult_base c) in M1, M2; auto. destruct v; cbn in *; congruence.
Qed.
Lemma diag_inj : forall c b c' b', In b (nth c L []) -> In b' (nth c' L []) ->
  (get_ind_dm0 dm b b c = get_ind_dm0 dm b' b' c' <-> c = c' /\ mult b b').
Proof.
  intros c b c' b' Hb Hb'. destruct (num_of_diag c b Hb) as (k & N & _ & G & _). destruct (num_of_diag c' b' Hb') as (k' & N' & _ & G' & _).
  split.
  - intros E. rewrite G, G' in E. assert (k = k') by (injection E; lia). subst k'. rewrite N in N'. injection N' as <- N'. split; auto. apply (mult_base c); auto.
  - intros (<- & M). apply (mult_base c) in M; auto. rewrite <- M in N'. rewrite G, G'. do 2 f_equal. apply (nth_error_nodup _ D k k' _ sD_nodup N N').
Qed.
Lemma num_inverse_ssq : forall k, k < dm_ndm0 dm -> exists b bp c,
  In b (nth c L []) /\ In bp (nth c L []) /\ lowest b = true /\ lowest bp = true /\ dict_get Nat.eqb k (inddm0 dm) = Some (b, bp) /\
  get_ind_dm0 dm b bp c = Some (Z.of_nat k) /\ get_bool_dm0 dm b bp c = Some true /\ (kd = KPauli -> bp = b) /\ (k < dm_npauli dm <-> b = bp).
Proof.
  intros k Hk. rewrite ss_ndm0 in Hk.
  assert (X : exists e, In e (dm_log dm) /\ e_dict e = true /\ e_cnt e = k /\ lowest (e_b e) = true /\ lowest (e_bp e) = true /\ (k < length D <-> e_b e = e_bp e)).
  { destruct (Nat.lt_ge_cases k (length D)) as [H|H].
    - destruct (nth_error D k) as [[c b]|] eqn:N; [|apply nth_error_None in N; lia]. pose proof (nth_error_In _ _ N) as HD. apply sD_in in HD. destruct HD as (Hb & Lb).
      exists (mkEv k b b c true true). split; [|cbn; tauto]. apply slog_in. left. exists k, c, b, (- zss b)%Z. split; auto.
      split; [apply projections_low, (st_pos c b); auto|]. now rewrite (at_low c b Hb Lb), Z.eqb_refl.
    - destruct (nth_error O (k - length D)) as [[c [b bp]]|] eqn:N; [|apply nth_error_None in N; lia]. pose proof (nth_error_In _ _ N) as HO. apply sO_in in HO.
      destruct HO as (Hb & Hbp & Hne & E1 & E2 & Lb & Lbp). exists (mkEv k b bp c true true). split.
      + apply slog_in. right. exists (k - length D), c, b, bp, (- zss b)%Z. split; auto. split; [apply projections_low, (st_pos c b); auto|]. left.
        rewrite Z.eqb_refl, (at_low c b Hb Lb), E2, (at_low c bp Hbp Lbp). f_equal. lia.
      + cbn. repeat split; auto; intros; [lia|contradiction]. }
  destruct X as (e & He & X1 & X2 & X3 & X4 & X5). destruct (slog_states e He) as [S1 S2]. destruct (s_entered e He) as (A & B & _).
  exists (e_b e), (e_bp e), (e_ch e). repeat (split; auto).
  - apply s_inddm0. exists e. auto.
  - subst k. exact A.
  - rewrite <- X1. exact B.
  - intros Hp. apply slog_pauli; auto.
  - intros H. apply X5. rewrite ss_npauli in H. auto.
  - intros H. rewrite ss_npauli. apply X5. auto.
Qed.
Lemma num_only_ssq : forall k p, dict_get Nat.eqb k (inddm0 dm) = Some p -> k < dm_ndm0 dm.
Proof.
  intros k [b bp] H. apply s_inddm0 in H. destruct H as (e & He & X1 & <- & _). rewrite ss_ndm0.
  assert (HC : In (e_cnt e) (map e_cnt (filter e_dict (dm_log dm)))) by (apply in_map, filter_In; auto).
  rewrite sdict_counters in HC. apply in_seq in HC. lia.
Qed.
End SsqNumbering.
