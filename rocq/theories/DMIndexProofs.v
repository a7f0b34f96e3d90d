(** Proofs about the density-matrix numbering (no symmetry: indexing other than 'ssq'). *)
From Coq Require Import String List Arith Lia ZArith Bool Permutation.
From Verif Require Import Base Bits Indexing IndexingProofs RemoveProofs Binom SsqProofs Qn DMIndex.
Import ListNotations.
Open Scope nat_scope.
Local Notation length := List.length.

(** ** Prefix sums *)
Definition psum (w : nat -> nat) (c : nat) : nat := sumn (map w (seq 0 c)).

Lemma psum_S : forall w c, psum w (S c) = psum w c + w c.
Proof. intros. unfold psum. rewrite seq_S, map_app, sumn_app. simpl. lia. Qed.

Lemma psum_mono : forall w a b, a <= b -> psum w a <= psum w b.
Proof. intros w a b H. induction H; auto. rewrite psum_S. lia. Qed.

Lemma psum_ext : forall w w' c, (forall j, j < c -> w j = w' j) -> psum w c = psum w' c.
Proof.
  induction c; intros H; auto. rewrite !psum_S. rewrite IHc by (intros; apply H; lia).
  rewrite H by lia. auto.
Qed.

Lemma shift_loop_length : forall m w sh, length (shift_loop m w sh) = length sh.
Proof.
  intros. unfold shift_loop. generalize (seq 0 m). intros xs. revert sh.
  induction xs; simpl; intros; auto. rewrite IHxs. apply set_nth_length.
Qed.

Lemma shift_loop_nth : forall w m sh c, m < length sh -> nth 0 sh 0 = 0 -> c <= m ->
  nth c (shift_loop m w sh) 0 = psum w c.
Proof.
  intros w. induction m; intros sh c Hl H0 Hc.
  - assert (c = 0) by lia. subst. simpl. auto.
  - unfold shift_loop. rewrite seq_S, fold_left_app. simpl.
    fold (shift_loop m w sh).
    destruct (Nat.eq_dec c (S m)) as [->|Hne].
    + rewrite nth_set_same by (rewrite shift_loop_length; lia).
      rewrite IHm by (auto; lia). now rewrite psum_S.
    + rewrite nth_set_other by lia. apply IHm; auto; lia.
Qed.

(** every number below psum lies in exactly one interval *)
Lemma psum_locate : forall w m x, x < psum w m -> exists c, c < m /\ psum w c <= x < psum w (S c).
Proof.
  induction m; intros x H.
  - unfold psum in H. simpl in H. lia.
  - destruct (Nat.lt_ge_cases x (psum w m)) as [H1|H1].
    + destruct (IHm x H1) as (c & A & B). exists c. split; auto.
    + exists m. split; auto.
Qed.

Lemma psum_unique : forall w c c' x, psum w c <= x < psum w (S c) -> psum w c' <= x < psum w (S c') -> c = c'.
Proof.
  intros w c c' x [H1 H2] [H3 H4].
  destruct (Nat.lt_trichotomy c c') as [H|[H|H]]; auto.
  - pose proof (psum_mono w (S c) c' H). lia.
  - pose proof (psum_mono w (S c') c H). lia.
Qed.

(** ** Positions *)
Lemma dict_block_gen : forall l d k x, 
  fst (fold_left (fun st j2 => let '(d, counter) := st in (set_nth j2 counter d, S counter)) l (d, k)) = 
  fst (fold_left (fun st j2 => let '(d, counter) := st in (set_nth j2 counter d, S counter)) l (d, k)) /\
  (~ In x l -> nth x (fst (fold_left (fun st j2 => let '(d, counter) := st in (set_nth j2 counter d, S counter)) l (d, k))) 0 = nth x d 0).
Proof.
  induction l as [|a l IH]; simpl; intros d k x; split; auto.
  intros H. destruct (IH (set_nth a k d) (S k) x) as [_ H2]. rewrite H2 by auto.
  apply nth_set_other. intros ->. auto.
Qed.

Lemma dict_block_other : forall l d x, ~ In x l -> nth x (dict_block l d) 0 = nth x d 0.
Proof. intros. unfold dict_block. now apply dict_block_gen. Qed.

Lemma dict_block_length : forall l d, length (dict_block l d) = length d.
Proof.
  intros. unfold dict_block. generalize 0. revert d.
  induction l; simpl; intros; auto. rewrite IHl. apply set_nth_length.
Qed.

Lemma dict_block_at : forall l d p, NoDup l -> (forall x, In x l -> x < length d) -> p < length l ->
  nth (nth p l 0) (dict_block l d) 0 = p.
Proof.
  intros l d p ND Hb Hp.
  assert (G : forall l d k p, NoDup l -> (forall x, In x l -> x < length d) -> p < length l ->
    nth (nth p l 0) (fst (fold_left (fun st j2 => let '(d, counter) := st in (set_nth j2 counter d, S counter)) l (d, k))) 0 = k + p).
  { clear. induction l as [|a l IH]; simpl; intros d k p ND Hb Hp; [lia|].
    inversion ND; subst. destruct p; simpl.
    - destruct (dict_block_gen l (set_nth a k d) (S k) a) as [_ H]. rewrite H by auto.
      rewrite nth_set_same by (apply Hb; auto). lia.
    - rewrite IH; auto; try lia. intros x Hx. rewrite set_nth_length. auto. }
  unfold dict_block. now rewrite G.
Qed.

Lemma dict_loop_length : forall nc L d, length (dict_loop nc L d) = length d.
Proof.
  intros. unfold dict_loop. generalize (seq 0 nc). intros xs. revert d.
  induction xs; simpl; intros; auto. rewrite IHxs. apply dict_block_length.
Qed.

Lemma dict_loop_at : forall L nc d c p, NoDup (concat (firstn nc L)) -> nc <= length L ->
  (forall x, In x (concat (firstn nc L)) -> x < length d) -> c < nc -> p < length (nth c L []) ->
  nth (nth p (nth c L []) 0) (dict_loop nc L d) 0 = p.
Proof.
  intros L. induction nc; intros d c p ND HL Hb Hc Hp; [lia|].
  assert (EF : firstn (S nc) L = firstn nc L ++ [nth nc L []]).
  { clear -HL. revert nc HL. induction L; intros; simpl in *; [lia|].
    destruct nc; simpl; auto. f_equal. apply IHL. lia. }
  rewrite EF, concat_app in ND, Hb. simpl in ND, Hb. rewrite app_nil_r in ND, Hb.
  unfold dict_loop. rewrite seq_S, fold_left_app. simpl. fold (dict_loop nc L d).
  apply NoDup_app_inv in ND. destruct ND as (N1 & N2 & N3).
  destruct (Nat.eq_dec c nc) as [->|Hne].
  - apply dict_block_at; auto. intros x Hx. rewrite dict_loop_length. apply Hb, in_or_app; auto.
  - rewrite dict_block_other.
    + apply IHnc; auto; try lia. intros; apply Hb, in_or_app; auto.
    + intros Hin. apply (N3 (nth p (nth c L []) 0)); auto.
      apply in_concat_nth with (k := c).
      assert (EN : nth c (firstn nc L) [] = nth c L []).
      { assert (Hcn : c < nc) by lia. clear -Hcn. revert c Hcn L.
        induction nc; intros; [lia|]. destruct L, c; simpl; auto. apply IHnc. lia. }
      rewrite EN. now apply nth_In.
Qed.

(** ** Well-formed considered states *)
(** the states of the first [nc] lists are distinct and below [m]; the other lists are empty *)
Record states_ok (nc m : nat) (L : list (list nat)) : Prop := {
  so_len : nc < length L;
  so_nodup : NoDup (concat (firstn nc L));
  so_bound : forall x, In x (concat (firstn nc L)) -> x < m;
  so_empty : forall c, nc <= c -> nth c L [] = []
}.

Lemma nth_firstn : forall A (d : A) L c n, c < n -> nth c (firstn n L) d = nth c L d.
Proof.
  intros A d L c n H. revert c n H. induction L; intros; destruct n; simpl; try lia; auto.
  destruct c; auto. apply IHL. lia.
Qed.

Lemma so_block_nodup : forall nc m L c, states_ok nc m L -> NoDup (nth c L []).
Proof.
  intros nc m L c H. destruct (Nat.lt_ge_cases c nc).
  - pose proof (so_nodup _ _ _ H) as ND. rewrite <- (nth_firstn _ [] L c nc) by auto.
    assert (Hc : c < length (firstn nc L)) by (rewrite firstn_length; pose proof (so_len _ _ _ H); lia).
    revert ND. rewrite (concat_firstn_app _ (firstn nc L) c), (skipn_nth _ [] _ c Hc). simpl.
    intros ND. apply NoDup_app_inv in ND. destruct ND as (_ & ND & _).
    apply NoDup_app_inv in ND. tauto.
  - rewrite (so_empty _ _ _ H) by auto. constructor.
Qed.

Lemma so_in : forall nc m L c x, states_ok nc m L -> In x (nth c L []) -> c < nc /\ x < m.
Proof.
  intros nc m L c x H Hx. destruct (Nat.lt_ge_cases c nc).
  - split; auto. apply (so_bound _ _ _ H). apply in_concat_nth with (k := c).
    rewrite nth_firstn; auto.
  - rewrite (so_empty _ _ _ H) in Hx by auto. destruct Hx.
Qed.

Lemma so_same_block : forall nc m L c c' x, states_ok nc m L -> In x (nth c L []) -> In x (nth c' L []) -> c = c'.
Proof.
  intros nc m L c c' x H H1 H2.
  destruct (so_in _ _ _ _ _ H H1) as [Hc _]. destruct (so_in _ _ _ _ _ H H2) as [Hc' _].
  eapply NoDup_concat_disjoint with (L := firstn nc L) (x := x).
  - apply (so_nodup _ _ _ H).
  - rewrite nth_firstn; auto.
  - rewrite nth_firstn; auto.
Qed.

Section Slots.
Variables (kd : kind) (ixs : ix) (qn : nat -> option (list Z)) (qi : list Z -> option nat).
Variables (nc : nat) (dict0 : list nat) (L : list (list nat)).
Hypothesis SO : states_ok nc (length dict0) L.
Let dm := set_statesdm' kd ixs qn qi nc dict0 L.
Let len c := length (nth c L []).

Lemma dm_fields :
  dm_kind dm = kd /\ dm_ncharge dm = nc /\ dm_statesdm dm = L /\
  dm_npauli_ dm = psum len nc /\
  dm_ndm0_ dm = (match kd with KPauli => 0 | _ => psum (fun j => len j * len j) nc end) /\
  dm_ndm1_ dm = (match kd with KPauli => 0 | _ => psum (fun j => len j * len (S j)) (nc - 1) end) /\
  dm_lenlst dm = map len (seq 0 nc) /\
  dm_shiftlst0 dm = shift_loop nc (match kd with KPauli => len | _ => fun j => len j * len j end) (repeat 0 (nc + 1)) /\
  dm_shiftlst1 dm = shift_loop (nc - 1) (fun j => len j * len (S j)) (repeat 0 nc) /\
  dm_dictdm dm = dict_loop nc L dict0 /\
  dm_npauli dm = fst (diag_loop ixs qn qi nc L (0, [])) /\
  dm_ndm0 dm = fst (off_loop kd ixs qn qi nc L (diag_loop ixs qn qi nc L (0, []))) /\
  dm_log dm = snd (off_loop kd ixs qn qi nc L (diag_loop ixs qn qi nc L (0, []))) /\
  dm_ndm0r dm = dm_npauli dm + 2 * (dm_ndm0 dm - dm_npauli dm) /\
  dm_ndm1 dm = dm_ndm1_ dm.
Proof.
  unfold dm, set_statesdm'.
  destruct (diag_loop ixs qn qi nc L (0, [])) as [np l1].
  destruct (off_loop kd ixs qn qi nc L (np, l1)) as [nd l2]. simpl.
  repeat split; reflexivity.
Qed.

(** position of a state in its list *)
Definition pos (x : nat) : nat := nth x (dict_loop nc L dict0) 0.

Lemma pos_spec : forall c x, In x (nth c L []) -> pos x < len c /\ nth (pos x) (nth c L []) 0 = x.
Proof.
  intros c x Hx. destruct (so_in _ _ _ _ _ SO Hx) as [Hc Hm].
  apply In_nth with (d := 0) in Hx. destruct Hx as (p & Hp & E).
  assert (EP : pos x = p).
  { unfold pos. rewrite <- E. apply dict_loop_at; auto.
    - apply (so_nodup _ _ _ SO).
    - pose proof (so_len _ _ _ SO). lia.
    - apply (so_bound _ _ _ SO). }
  rewrite EP. auto.
Qed.

Lemma pos_at : forall c p, p < len c -> pos (nth p (nth c L []) 0) = p.
Proof.
  intros c p Hp. destruct (pos_spec c (nth p (nth c L []) 0)) as [A B]; [apply nth_In; auto|].
  assert (ND := so_block_nodup _ _ _ c SO). rewrite NoDup_nth with (d := 0) in ND.
  apply ND; auto.
Qed.

Lemma pos_inj : forall c x y, In x (nth c L []) -> In y (nth c L []) -> pos x = pos y -> x = y.
Proof.
  intros c x y Hx Hy E. destruct (pos_spec c x Hx) as [_ A]. destruct (pos_spec c y Hy) as [_ B].
  congruence.
Qed.

Definition slot0 (b bp c : nat) : nat :=
  match kd with
  | KPauli => pos b + psum len c
  | _ => len c * pos b + pos bp + psum (fun j => len j * len j) c
  end.

Lemma dm0_slot_eq : forall b bp c, c < nc -> dm0_slot dm b bp c = slot0 b bp c.
Proof.
  intros b bp c Hc. destruct dm_fields as (E1 & E2 & E3 & E4 & E5 & E6 & E7 & E8 & E9 & E10 & _).
  unfold dm0_slot, slot0. rewrite E1, E7, E8, E10.
  rewrite nth_map_seq by auto. rewrite shift_loop_nth.
  - unfold pos. destruct kd; auto.
  - rewrite repeat_length. lia.
  - destruct nc; reflexivity.
  - lia.
Qed.

Lemma dm0_size_eq : dm0_size dm = match kd with KPauli => psum len nc | _ => psum (fun j => len j * len j) nc end.
Proof.
  destruct dm_fields as (E1 & E2 & E3 & E4 & E5 & _). unfold dm0_size. rewrite E1, E4, E5.
  destruct kd; reflexivity.
Qed.

Lemma block_index_bound : forall l i j, i < l -> j < l -> l * i + j < l * l.
Proof. intros. nia. Qed.

Lemma slot0_range : forall b bp c, In b (nth c L []) -> In bp (nth c L []) ->
  match kd with
  | KPauli => psum len c <= slot0 b bp c < psum len (S c)
  | _ => psum (fun j => len j * len j) c <= slot0 b bp c < psum (fun j => len j * len j) (S c)
  end.
Proof.
  intros b bp c Hb Hbp. destruct (pos_spec c b Hb) as [P1 _]. destruct (pos_spec c bp Hbp) as [P2 _].
  unfold slot0. rewrite !psum_S. pose proof (block_index_bound (len c) (pos b) (pos bp) P1 P2).
  destruct kd; lia.
Qed.

Lemma slot0_bound : forall b bp c, In b (nth c L []) -> In bp (nth c L []) -> slot0 b bp c < dm0_size dm.
Proof.
  intros b bp c Hb Hbp. pose proof (slot0_range b bp c Hb Hbp) as R. rewrite dm0_size_eq.
  destruct (so_in _ _ _ _ _ SO Hb) as [Hc _].
  pose proof (psum_mono len (S c) nc). pose proof (psum_mono (fun j => len j * len j) (S c) nc).
  destruct kd; lia.
Qed.

Lemma div_unique' : forall l i j i' j', j < l -> j' < l -> l * i + j = l * i' + j' -> i = i' /\ j = j'.
Proof. intros. eapply Nat.div_mod_unique; eauto. Qed.

(** slots of different elements are different (for Pauli, of different diagonal elements) *)
Lemma slot0_inj : forall b bp c b' bp' c',
  In b (nth c L []) -> In bp (nth c L []) -> In b' (nth c' L []) -> In bp' (nth c' L []) ->
  (kd = KPauli -> bp = b /\ bp' = b') ->
  slot0 b bp c = slot0 b' bp' c' -> b = b' /\ bp = bp' /\ c = c'.
Proof.
  intros b bp c b' bp' c' H1 H2 H3 H4 HP E.
  pose proof (slot0_range b bp c H1 H2) as R. pose proof (slot0_range b' bp' c' H3 H4) as R'.
  rewrite <- E in R'.
  assert (Ec : c = c').
  { destruct kd; eapply psum_unique; eauto. }
  subst c'. destruct (pos_spec c b H1) as [P1 _]. destruct (pos_spec c bp H2) as [P2 _].
  destruct (pos_spec c b' H3) as [P3 _]. destruct (pos_spec c bp' H4) as [P4 _].
  unfold slot0 in E. destruct kd.
  - destruct HP as [-> ->]; auto. assert (b = b') by (apply (pos_inj c); auto; lia). auto.
  - assert (EE : pos b = pos b' /\ pos bp = pos bp') by (apply (div_unique' (len c)); auto; lia).
    split; [|split]; auto; apply (pos_inj c); tauto.
  - assert (EE : pos b = pos b' /\ pos bp = pos bp') by (apply (div_unique' (len c)); auto; lia).
    split; [|split]; auto; apply (pos_inj c); tauto.
Qed.

(** every slot is used *)
Lemma slot0_surj : forall k, k < dm0_size dm -> exists b bp c,
  In b (nth c L []) /\ In bp (nth c L []) /\ slot0 b bp c = k /\ (kd = KPauli -> bp = b).
Proof.
  intros k Hk. rewrite dm0_size_eq in Hk.
  assert (SQ : forall k, k < psum (fun j => len j * len j) nc ->
     exists c i j, c < nc /\ i < len c /\ j < len c /\ len c * i + j + psum (fun j => len j * len j) c = k).
  { intros k0 H. destruct (psum_locate _ _ _ H) as (c & Hc & R1 & R2). rewrite psum_S in R2.
    set (r := k0 - psum (fun j => len j * len j) c).
    assert (Hr : r < len c * len c) by (unfold r; lia).
    assert (len c <> 0) by nia.
    exists c, (r / len c), (r mod len c). split; auto.
    pose proof (Nat.mod_upper_bound r (len c) H0). pose proof (Nat.div_mod r (len c) H0).
    split; [apply Nat.div_lt_upper_bound; auto|]. split; auto. unfold r in *. lia. }
  unfold slot0. destruct kd.
  - destruct (psum_locate _ _ _ Hk) as (c & Hc & R1 & R2). rewrite psum_S in R2.
    exists (nth (k - psum len c) (nth c L []) 0), (nth (k - psum len c) (nth c L []) 0), c.
    assert (In (nth (k - psum len c) (nth c L []) 0) (nth c L [])) by (apply nth_In; fold (len c); lia).
    split; auto. split; auto. split; auto. rewrite (pos_at c) by lia. lia.
  - destruct (SQ k Hk) as (c & i & j & Hc & Hi & Hj & E).
    exists (nth i (nth c L []) 0), (nth j (nth c L []) 0), c.
    split; [apply nth_In; auto|]. split; [apply nth_In; auto|]. split; [|discriminate].
    rewrite !(pos_at c) by auto. auto.
  - destruct (SQ k Hk) as (c & i & j & Hc & Hi & Hj & E).
    exists (nth i (nth c L []) 0), (nth j (nth c L []) 0), c.
    split; [apply nth_In; auto|]. split; [apply nth_In; auto|]. split; [|discriminate].
    rewrite !(pos_at c) by auto. auto.
Qed.

(** ** First-order elements *)
Definition slot1 (c b bch : nat) : nat :=
  len bch * pos c + pos b + psum (fun j => len j * len (S j)) bch.

Lemma dm1_slot_eq : forall c b bch, bch + 1 < nc -> get_ind_dm1 dm c b bch = slot1 c b bch.
Proof.
  intros c b bch Hc. destruct dm_fields as (E1 & E2 & E3 & E4 & E5 & E6 & E7 & E8 & E9 & E10 & _).
  unfold get_ind_dm1, slot1. rewrite E7, E9, E10.
  rewrite nth_map_seq by lia. rewrite shift_loop_nth; auto.
  - rewrite repeat_length. lia.
  - destruct nc; reflexivity.
  - lia.
Qed.

Lemma rect_bound : forall l l' i j, i < l' -> j < l -> l * i + j < l * l'.
Proof. intros. nia. Qed.

Lemma slot1_range : forall c b bch, In c (nth (S bch) L []) -> In b (nth bch L []) ->
  psum (fun j => len j * len (S j)) bch <= slot1 c b bch < psum (fun j => len j * len (S j)) (S bch).
Proof.
  intros c b bch Hc Hb. destruct (pos_spec _ _ Hc) as [P1 _]. destruct (pos_spec _ _ Hb) as [P2 _].
  unfold slot1. rewrite !psum_S. pose proof (rect_bound (len bch) (len (S bch)) (pos c) (pos b) P1 P2). lia.
Qed.

Lemma slot1_inj : forall c b bch c' b' bch',
  In c (nth (S bch) L []) -> In b (nth bch L []) -> In c' (nth (S bch') L []) -> In b' (nth bch' L []) ->
  slot1 c b bch = slot1 c' b' bch' -> c = c' /\ b = b' /\ bch = bch'.
Proof.
  intros c b bch c' b' bch' H1 H2 H3 H4 E.
  pose proof (slot1_range c b bch H1 H2) as R. pose proof (slot1_range c' b' bch' H3 H4) as R'.
  rewrite <- E in R'. assert (Ec : bch = bch') by (eapply psum_unique; eauto). subst bch'.
  destruct (pos_spec _ _ H1) as [P1 _]. destruct (pos_spec _ _ H2) as [P2 _].
  destruct (pos_spec _ _ H3) as [P3 _]. destruct (pos_spec _ _ H4) as [P4 _].
  unfold slot1 in E.
  assert (EE : pos c = pos c' /\ pos b = pos b') by (apply (div_unique' (len bch)); auto; lia).
  split; [|split]; auto.
  - eapply pos_inj; eauto; tauto.
  - eapply pos_inj; eauto; tauto.
Qed.

Lemma slot1_surj : forall k, k < psum (fun j => len j * len (S j)) (nc - 1) ->
  exists c b bch, S bch < nc /\ In c (nth (S bch) L []) /\ In b (nth bch L []) /\ slot1 c b bch = k.
Proof.
  intros k H. destruct (psum_locate _ _ _ H) as (bch & Hc & R1 & R2). rewrite psum_S in R2.
  set (r := k - psum (fun j => len j * len (S j)) bch).
  assert (Hr : r < len bch * len (S bch)) by (unfold r; lia).
  assert (H0 : len bch <> 0) by nia.
  pose proof (Nat.mod_upper_bound r (len bch) H0). pose proof (Nat.div_mod r (len bch) H0).
  assert (r / len bch < len (S bch)) by (apply Nat.div_lt_upper_bound; auto).
  exists (nth (r / len bch) (nth (S bch) L []) 0), (nth (r mod len bch) (nth bch L []) 0), bch.
  split; [lia|]. split; [apply nth_In; auto|]. split; [apply nth_In; auto|].
  unfold slot1. rewrite (pos_at (S bch)), (pos_at bch) by auto. unfold r in *. lia.
Qed.
End Slots.

(** ** The add_elem calls *)
Fixpoint emit {X} (g : nat -> X -> list ev) (k : nat) (xs : list X) : list ev :=
  match xs with [] => [] | x :: xs' => g k x ++ emit g (S k) xs' end.

Lemma emit_in : forall X (g : nat -> X -> list ev) xs k e,
  In e (emit g k xs) <-> exists j x, nth_error xs j = Some x /\ In e (g (k + j) x).
Proof.
  induction xs as [|x xs IH]; simpl; intros k e.
  - split; [tauto|]. intros (j & x & H & _). destruct j; discriminate.
  - rewrite in_app_iff, IH. split.
    + intros [H|(j & y & H1 & H2)].
      * exists 0, x. split; auto. now rewrite Nat.add_0_r.
      * exists (S j), y. split; auto. now replace (k + S j) with (S k + j) by lia.
    + intros (j & y & H1 & H2). destruct j; simpl in H1.
      * injection H1 as ->. left. now rewrite Nat.add_0_r in H2.
      * right. exists j, y. split; auto. now replace (S k + j) with (k + S j) by lia.
Qed.

Lemma emit_app : forall X (g : nat -> X -> list ev) xs ys k,
  emit g k (xs ++ ys) = emit g k xs ++ emit g (k + length xs) ys.
Proof.
  induction xs; simpl; intros.
  - now rewrite Nat.add_0_r.
  - rewrite IHxs, app_assoc. replace (k + S (length xs)) with (S k + length xs) by lia. reflexivity.
Qed.

(** a loop that emits [g counter x] and increments the counter for the items satisfying [p] *)
Lemma emit_loop : forall X (p : X -> bool) (g : nat -> X -> list ev) xs k evs,
  fold_left (fun (st : nat * list ev) x =>
     let '(c, evs) := st in if p x then (S c, evs ++ g c x) else (c, evs)) xs (k, evs)
  = (k + length (filter p xs), evs ++ emit g k (filter p xs)).
Proof.
  induction xs as [|x xs IH]; simpl; intros k evs.
  - now rewrite Nat.add_0_r, app_nil_r.
  - destruct (p x); rewrite IH; simpl.
    + rewrite <- app_assoc. f_equal. lia.
    + reflexivity.
Qed.

Lemma fold_flatten : forall X Y S (f : S -> X -> Y -> S) (items : X -> list Y) cs st,
  fold_left (fun st c => fold_left (fun st y => f st c y) (items c) st) cs st
  = fold_left (fun st cy => f st (fst cy) (snd cy)) (flat_map (fun c => map (pair c) (items c)) cs) st.
Proof.
  induction cs as [|c cs IH]; simpl; intros; auto.
  rewrite fold_left_app, IH. f_equal.
  generalize (items c). intros l. revert st. induction l; simpl; intros; auto.
Qed.

Lemma fold_left_ext2 : forall A B (f g : A -> B -> A) l a, (forall a b, f a b = g a b) ->
  fold_left f l a = fold_left g l a.
Proof. intros. apply fold_left_ext_in. auto. Qed.

(** [sel b bp]: the off-diagonal element is kept *)
Definition sel (ixs : ix) (qn : nat -> option (list Z)) (b bp : nat) : bool :=
  match ixs with IxSz => (qn_at qn b 1 =? qn_at qn bp 1)%Z | _ => true end.

Lemma sel_sym : forall ixs qn b bp, sel ixs qn b bp = sel ixs qn bp b.
Proof. intros. unfold sel. destruct ixs; auto. apply Z.eqb_sym. Qed.

Definition diag_items (nc : nat) (L : list (list nat)) : list (nat * nat) :=
  flat_map (fun c => map (pair c) (nth c L [])) (seq 0 nc).
Definition off_items (kd : kind) (ixs : ix) qn (nc : nat) (L : list (list nat)) : list (nat * (nat * nat)) :=
  match kd with
  | KPauli => []
  | KDM => filter (fun x => sel ixs qn (fst (snd x)) (snd (snd x)))
             (flat_map (fun c => map (pair c) (combinations2 (nth c L []))) (seq 0 nc))
  | KDMc => filter (fun x => sel ixs qn (fst (snd x)) (snd (snd x)))
             (flat_map (fun c => map (pair c) (permutations2 (nth c L []))) (seq 0 nc))
  end.
Definition g_diag (k : nat) (x : nat * nat) : list ev := [mkEv k (snd x) (snd x) (fst x) true true].
Definition g_off (kd : kind) (k : nat) (x : nat * (nat * nat)) : list ev :=
  let '(c, (b, bp)) := x in
  match kd with
  | KDM => [mkEv k bp b c false false; mkEv k b bp c true true]
  | _ => [mkEv k b bp c true true]
  end.

Lemma filter_true' : forall A (l : list A) f, (forall x, f x = true) -> filter f l = l.
Proof. induction l; simpl; intros; auto. rewrite H. f_equal. auto. Qed.

Lemma diag_loop_eq : forall ixs qn qi nc L, ixs <> IxSsq ->
  diag_loop ixs qn qi nc L (0, []) = (length (diag_items nc L), emit g_diag 0 (diag_items nc L)).
Proof.
  intros ixs qn qi nc L Hix. unfold diag_loop.
  rewrite (fold_flatten nat nat (nat * list ev) (fun st c b => diag_step ixs qn qi c st b)
             (fun c => nth c L []) (seq 0 nc)).
  fold (diag_items nc L).
  rewrite (fold_left_ext2 _ _ _ (fun (st : nat * list ev) x =>
     let '(c, evs) := st in if (fun _ => true) x then (S c, evs ++ g_diag c x) else (c, evs))).
  - etransitivity; [apply (emit_loop _ (fun _ => true))|]. rewrite filter_true' by auto. reflexivity.
  - intros [k evs] [c b]. unfold diag_step, g_diag. destruct ixs; try reflexivity. congruence.
Qed.

Lemma off_loop_eq : forall kd ixs qn qi nc L k evs, ixs <> IxSsq ->
  off_loop kd ixs qn qi nc L (k, evs) =
  (k + length (off_items kd ixs qn nc L), evs ++ emit (g_off kd) k (off_items kd ixs qn nc L)).
Proof.
  intros kd ixs qn qi nc L k evs Hix. unfold off_loop. destruct kd.
  - simpl. now rewrite Nat.add_0_r, app_nil_r.
  - rewrite (fold_flatten nat (nat * nat) (nat * list ev) (fun st c p => off_step_dm ixs qn qi c st p)
             (fun c => combinations2 (nth c L [])) (seq 0 nc)).
    rewrite (fold_left_ext2 _ _ _ (fun (st : nat * list ev) x =>
      let '(c, evs) := st in
      if (fun x => sel ixs qn (fst (snd x)) (snd (snd x))) x then (S c, evs ++ g_off KDM c x) else (c, evs))).
 
    + etransitivity; [apply (emit_loop _ (fun x => sel ixs qn (fst (snd x)) (snd (snd x))) (g_off KDM))|]. reflexivity.
    + intros [j es] [c [b bp]]. unfold off_step_dm, sel, g_off. simpl. destruct ixs; try reflexivity. congruence.
  - rewrite (fold_flatten nat (nat * nat) (nat * list ev) (fun st c p => off_step_dmc ixs qn qi c st p)
             (fun c => permutations2 (nth c L [])) (seq 0 nc)).
    rewrite (fold_left_ext2 _ _ _ (fun (st : nat * list ev) x =>
      let '(c, evs) := st in
      if (fun x => sel ixs qn (fst (snd x)) (snd (snd x))) x then (S c, evs ++ g_off KDMc c x) else (c, evs))).
    + etransitivity; [apply (emit_loop _ (fun x => sel ixs qn (fst (snd x)) (snd (snd x))) (g_off KDMc))|]. reflexivity.
    + intros [j es] [c [b bp]]. unfold off_step_dmc, sel, g_off. simpl. destruct ixs; try reflexivity. congruence.
Qed.

(** ** combinations and permutations *)
Lemma combinations2_in : forall l b bp, NoDup l ->
  (In (b, bp) (combinations2 l) -> In b l /\ In bp l /\ b <> bp) /\
  (In b l -> In bp l -> b <> bp -> In (b, bp) (combinations2 l) \/ In (bp, b) (combinations2 l)) /\
  ~ (In (b, bp) (combinations2 l) /\ In (bp, b) (combinations2 l)).
Proof.
  induction l as [|x l IH]; simpl; intros b bp ND; [tauto|].
  inversion ND as [|? ? Hx ND']; subst. destruct (IH b bp ND') as (A & B & C).
  assert (M : forall u v, In (u, v) (map (fun y => (x, y)) l ++ combinations2 l) <->
             (u = x /\ In v l) \/ In (u, v) (combinations2 l)).
  { intros u v. rewrite in_app_iff, in_map_iff. split.
    - intros [(y & E & H)|H]; auto. injection E as <- <-. auto.
    - intros [[-> H]|H]; auto. left. exists v. auto. }
  destruct (IH bp b ND') as (A' & B' & C').
  rewrite !M. split; [|split].
  - intros [[-> H]|H].
    + split; auto. split; auto. intros ->. auto.
    + destruct (A H) as (H1 & H2 & H3). auto.
  - intros [->|Hb] [E|Hbp] Hne; subst; auto.
    + congruence.
    + destruct (B Hb Hbp Hne); auto.
  - intros [[[-> H]|H] [[-> H']|H']]; auto.
    + apply A' in H'. tauto.
    + apply A in H. tauto.
Qed.

Lemma combinations2_nodup : forall l, NoDup l -> NoDup (combinations2 l).
Proof.
  induction l as [|x l IH]; simpl; intros ND; [constructor|].
  inversion ND as [|? ? Hx ND']; subst. apply NoDup_app_intro; auto.
  - apply FinFun.Injective_map_NoDup; auto. intros a b E. now injection E.
  - intros [u v] H1 H2. apply in_map_iff in H1. destruct H1 as (y & E & _). injection E as <- <-.
    apply (combinations2_in l x y ND') in H2. tauto.
Qed.

Lemma combinations2_length : forall l, 2 * length (combinations2 l) + length l = length l * length l.
Proof.
  induction l; simpl; auto. rewrite app_length, map_length. lia.
Qed.

Lemma permutations2_in : forall l b bp, NoDup l ->
  (In (b, bp) (permutations2 l) <-> In b l /\ In bp l /\ b <> bp).
Proof.
  intros l b bp ND. unfold permutations2. rewrite in_flat_map. split.
  - intros (i & Hi & H). apply in_flat_map in H. destruct H as (j & Hj & H).
    apply in_seq in Hi, Hj. destruct (Nat.eqb_spec i j) as [->|Hne]; [destruct H|].
    destruct H as [E|[]]. injection E as <- <-.
    split; [apply nth_In; lia|]. split; [apply nth_In; lia|].
    intros E. apply Hne. rewrite NoDup_nth with (d := 0) in ND. apply ND; auto; lia.
  - intros (Hb & Hbp & Hne). apply In_nth with (d := 0) in Hb, Hbp.
    destruct Hb as (i & Hi & Ei). destruct Hbp as (j & Hj & Ej).
    exists i. split; [apply in_seq; lia|]. apply in_flat_map. exists j. split; [apply in_seq; lia|].
    destruct (Nat.eqb_spec i j); [congruence|]. left. congruence.
Qed.

Lemma permutations2_nodup : forall l, NoDup l -> NoDup (permutations2 l).
Proof.
  intros l ND. unfold permutations2. pose proof (NoDup_nth l 0) as NN. destruct NN as [NN _].
  specialize (NN ND). apply NoDup_flat_map.
  - apply seq_NoDup.
  - intros i Hi. apply NoDup_flat_map.
    + apply seq_NoDup.
    + intros j _. destruct (i =? j); repeat constructor; simpl; tauto.
    + intros j j' p Hj Hj' H1 H2. apply in_seq in Hi, Hj, Hj'.
      destruct (i =? j); [destruct H1|]. destruct (i =? j'); [destruct H2|].
      destruct H1 as [<-|[]]. destruct H2 as [E|[]]. injection E as E. symmetry. apply NN; auto; lia.
  - intros i i' p Hi Hi' H1 H2. apply in_flat_map in H1, H2.
    destruct H1 as (j & Hj & H1). destruct H2 as (j' & Hj' & H2). apply in_seq in Hi, Hi', Hj, Hj'.
    destruct (i =? j); [destruct H1|]. destruct (i' =? j'); [destruct H2|].
    destruct H1 as [<-|[]]. destruct H2 as [E|[]]. injection E as E _. symmetry. apply NN; auto; lia.
Qed.

(** ** Arrays written by a log *)
Section Writes.
Variables (V : Type) (slot : ev -> nat) (val : ev -> V).

Lemma writes_length : forall log arr,
  length (fold_left (fun m e => set_nth (slot e) (val e) m) log arr) = length arr.
Proof. induction log; simpl; intros; auto. rewrite IHlog. apply set_nth_length. Qed.

Lemma writes_other : forall log arr s, (forall e, In e log -> slot e <> s) ->
  nth_error (fold_left (fun m e => set_nth (slot e) (val e) m) log arr) s = nth_error arr s.
Proof.
  induction log as [|e log IH]; simpl; intros arr s H; auto.
  rewrite IH by auto. apply nth_error_set_other. apply H. auto.
Qed.

Lemma writes_at : forall log arr s v, s < length arr ->
  (exists e, In e log /\ slot e = s) -> (forall e, In e log -> slot e = s -> val e = v) ->
  nth_error (fold_left (fun m e => set_nth (slot e) (val e) m) log arr) s = Some v.
Proof.
  induction log as [|e log IH]; simpl; intros arr s v Hs (e0 & Hin & E0) HV; [destruct Hin|].
  assert (D : (exists e, In e log /\ slot e = s) \/ (forall e, In e log -> slot e <> s)).
  { clear. induction log as [|a log IH]; [right; simpl; tauto|].
    destruct (Nat.eq_dec (slot a) s) as [E|E].
    - left. exists a. simpl. auto.
    - destruct IH as [(e & H1 & H2)|H].
      + left. exists e. simpl. auto.
      + right. intros e [<-|H']; auto. }
  destruct D as [D|D].
  - apply IH; auto. now rewrite set_nth_length.
  - rewrite writes_other by auto. destruct Hin as [<-|Hin]; [|exfalso; apply (D e0); auto].
    rewrite E0. rewrite nth_error_set_same by auto. f_equal. apply HV; auto.
Qed.
End Writes.

(** ** The numbering *)
Section Numbering.
Variables (kd : kind) (ixs : ix) (qn : nat -> option (list Z)) (qi : list Z -> option nat).
Variables (nc : nat) (dict0 : list nat) (L : list (list nat)).
Hypothesis SO : states_ok nc (length dict0) L.
Hypothesis Hix : ixs <> IxSsq.
Let dm := set_statesdm' kd ixs qn qi nc dict0 L.
Let D := diag_items nc L.
Let O := off_items kd ixs qn nc L.

Lemma dm_npauli_eq : dm_npauli dm = length D.
Proof.
  destruct (dm_fields kd ixs qn qi nc dict0 L) as (_ & _ & _ & _ & _ & _ & _ & _ & _ & _ & E & _).
  fold dm in E. rewrite E, diag_loop_eq by auto. reflexivity.
Qed.
Lemma dm_ndm0_eq : dm_ndm0 dm = length D + length O.
Proof.
  destruct (dm_fields kd ixs qn qi nc dict0 L) as (_ & _ & _ & _ & _ & _ & _ & _ & _ & _ & _ & E & _).
  fold dm in E. rewrite E, diag_loop_eq, off_loop_eq by auto. reflexivity.
Qed.
Lemma dm_log_eq : dm_log dm = emit g_diag 0 D ++ emit (g_off kd) (length D) O.
Proof.
  destruct (dm_fields kd ixs qn qi nc dict0 L) as (_ & _ & _ & _ & _ & _ & _ & _ & _ & _ & _ & _ & E & _).
  fold dm in E. rewrite E, diag_loop_eq, off_loop_eq by auto. reflexivity.
Qed.

Lemma D_in : forall c b, In (c, b) D <-> In b (nth c L []).
Proof.
  intros. unfold D, diag_items. rewrite in_flat_map. split.
  - intros (c' & Hc & H). apply in_map_iff in H. destruct H as (x & E & H). injection E as -> ->. auto.
  - intros H. exists c. split.
    + apply in_seq. destruct (so_in _ _ _ _ _ SO H). lia.
    + apply in_map_iff. eauto.
Qed.

Lemma D_nodup : NoDup D.
Proof.
  unfold D, diag_items. apply NoDup_flat_map.
  - apply seq_NoDup.
  - intros c _. apply FinFun.Injective_map_NoDup; [intros x y E; now injection E|].
    eapply so_block_nodup; eauto.
  - intros x y p _ _ H1 H2. apply in_map_iff in H1, H2.
    destruct H1 as (? & <- & _). destruct H2 as (? & E & _). now injection E.
Qed.

Lemma O_in : forall c b bp, In (c, (b, bp)) O ->
  In b (nth c L []) /\ In bp (nth c L []) /\ b <> bp /\ sel ixs qn b bp = true.
Proof.
  intros c b bp H. unfold O, off_items in H. destruct kd; [destruct H| |];
  apply filter_In in H; destruct H as [H Hs]; simpl in Hs;
  apply in_flat_map in H; destruct H as (c' & Hc & H); apply in_map_iff in H;
  destruct H as (x & E & H); injection E as -> ->.
  - apply combinations2_in in H; [tauto|]. eapply so_block_nodup; eauto.
  - apply permutations2_in in H; [tauto|]. eapply so_block_nodup; eauto.
Qed.

Lemma O_complete : forall c b bp, kd <> KPauli -> In b (nth c L []) -> In bp (nth c L []) -> b <> bp ->
  sel ixs qn b bp = true -> In (c, (b, bp)) O \/ In (c, (bp, b)) O.
Proof.
  intros c b bp Hk Hb Hbp Hne Hs. destruct (so_in _ _ _ _ _ SO Hb) as [Hc _].
  unfold O, off_items. destruct kd; [congruence| |].
  - assert (ND := so_block_nodup _ _ _ c SO).
    destruct (combinations2_in (nth c L []) b bp ND) as (_ & B & _).
    destruct (B Hb Hbp Hne); [left|right]; apply filter_In; simpl; rewrite ?(sel_sym _ _ bp b);
      (split; [|auto]); apply in_flat_map; exists c; (split; [apply in_seq; lia|]);
      apply in_map_iff; eauto.
  - left. apply filter_In. split; [|auto]. apply in_flat_map. exists c. split; [apply in_seq; lia|].
    apply in_map_iff. exists (b, bp). split; auto. apply permutations2_in; auto.
    eapply so_block_nodup; eauto.
Qed.

Lemma O_dmc : forall c b bp, kd = KDMc -> In b (nth c L []) -> In bp (nth c L []) -> b <> bp ->
  sel ixs qn b bp = true -> In (c, (b, bp)) O.
Proof.
  intros c b bp Hk Hb Hbp Hne Hs. destruct (so_in _ _ _ _ _ SO Hb) as [Hc _].
  unfold O, off_items. rewrite Hk. apply filter_In. split; [|auto]. apply in_flat_map.
  exists c. split; [apply in_seq; lia|].
  apply in_map_iff. exists (b, bp). split; auto. apply permutations2_in; auto.
  eapply so_block_nodup; eauto.
Qed.

Lemma O_antisym : forall c b bp, kd = KDM -> In (c, (b, bp)) O -> ~ In (c, (bp, b)) O.
Proof.
  intros c b bp Hk H H'. unfold O, off_items in *. rewrite Hk in *.
  apply filter_In in H, H'. destruct H as [H _]. destruct H' as [H' _].
  apply in_flat_map in H, H'. destruct H as (c1 & _ & H). destruct H' as (c2 & _ & H').
  apply in_map_iff in H, H'. destruct H as (x & E & H). destruct H' as (y & E' & H').
  injection E as -> ->. injection E' as -> ->.
  apply (combinations2_in (nth c L []) b bp (so_block_nodup _ _ _ c SO)). auto.
Qed.

Lemma O_nodup : NoDup O.
Proof.
  unfold O, off_items. destruct kd; [constructor| |]; apply filter_NoDup; apply NoDup_flat_map;
    try apply seq_NoDup.
  - intros c _. apply FinFun.Injective_map_NoDup; [intros x y E; now injection E|].
    apply combinations2_nodup. eapply so_block_nodup; eauto.
  - intros x y p _ _ H1 H2. apply in_map_iff in H1, H2.
    destruct H1 as (? & <- & _). destruct H2 as (? & E & _). now injection E.
  - intros c _. apply FinFun.Injective_map_NoDup; [intros x y E; now injection E|].
    apply permutations2_nodup. eapply so_block_nodup; eauto.
  - intros x y p _ _ H1 H2. apply in_map_iff in H1, H2.
    destruct H1 as (? & <- & _). destruct H2 as (? & E & _). now injection E.
Qed.

(** what the log contains *)
Lemma log_in : forall e, In e (dm_log dm) <->
  (exists j c b, nth_error D j = Some (c, b) /\ e = mkEv j b b c true true) \/
  (exists j c b bp, nth_error O j = Some (c, (b, bp)) /\
     (e = mkEv (length D + j) b bp c true true \/
      (kd = KDM /\ e = mkEv (length D + j) bp b c false false))).
Proof.
  intros e. rewrite dm_log_eq, in_app_iff, !emit_in. split.
  - intros [(j & [c b] & H & [<-|[]])|(j & [c [b bp]] & H & He)].
    + left. exists j, c, b. auto.
    + right. exists j, c, b, bp. split; auto. unfold g_off in He.
      destruct kd; simpl in He; intuition (subst; auto).
  - intros [(j & c & b & H & ->)|(j & c & b & bp & H & [->|[Hk ->]])].
    + left. exists j, (c, b). split; auto. simpl. auto.
    + right. exists j, (c, (b, bp)). split; auto. simpl. destruct kd; simpl; auto.
    + right. exists j, (c, (b, bp)). split; auto. simpl. rewrite Hk. simpl. auto.
Qed.

Lemma log_states : forall e, In e (dm_log dm) -> In (e_b e) (nth (e_ch e) L []) /\ In (e_bp e) (nth (e_ch e) L []).
Proof.
  intros e H. apply log_in in H.
  destruct H as [(j & c & b & H & ->)|(j & c & b & bp & H & He)].
  - apply nth_error_In in H. apply D_in in H. simpl. auto.
  - apply nth_error_In in H. apply O_in in H. destruct He as [->|[_ ->]]; simpl; tauto.
Qed.

Lemma log_pauli_diag : forall e, kd = KPauli -> In e (dm_log dm) -> e_bp e = e_b e.
Proof.
  intros e Hk H. apply log_in in H.
  destruct H as [(j & c & b & H & ->)|(j & c & b & bp & H & He)]; auto.
  unfold O, off_items in H. rewrite Hk in H. destruct j; discriminate.
Qed.

Lemma nth_error_nodup : forall A (l : list A) i j x, NoDup l -> nth_error l i = Some x -> nth_error l j = Some x -> i = j.
Proof.
  intros A l i j x ND Hi Hj. rewrite NoDup_nth_error in ND. apply ND.
  - apply nth_error_Some. congruence.
  - congruence.
Qed.

(** an element is entered at most once *)
Lemma log_unique : forall e e', In e (dm_log dm) -> In e' (dm_log dm) ->
  e_b e = e_b e' -> e_bp e = e_bp e' -> e_ch e = e_ch e' -> e = e'.
Proof.
  intros e e' H H' E1 E2 E3. apply log_in in H, H'.
  destruct H as [(j & c & b & H & ->)|(j & c & b & bp & H & He)];
  destruct H' as [(j' & c' & b' & H' & ->)|(j' & c' & b' & bp' & H' & He')]; simpl in *.
  - subst. f_equal. apply (nth_error_nodup _ D j j' (c', b') D_nodup); auto.
  - apply nth_error_In in H'. apply O_in in H'. destruct He' as [->|[_ ->]]; simpl in *; subst; intuition congruence.
  - apply nth_error_In in H. apply O_in in H. destruct He as [->|[_ ->]]; simpl in *; subst; intuition congruence.
  - destruct He as [->|[Hk ->]]; destruct He' as [->|[Hk' ->]]; simpl in *; subst b' bp' c'.
    + f_equal. f_equal. apply (nth_error_nodup _ O j j' _ O_nodup H H').
    + exfalso. apply nth_error_In in H, H'. apply (O_antisym _ _ _ Hk' H H').
    + exfalso. apply nth_error_In in H, H'. apply (O_antisym _ _ _ Hk H H').
    + f_equal. f_equal. apply (nth_error_nodup _ O j j' _ O_nodup H H').
Qed.

Lemma ev_slot_eq : forall e, In e (dm_log dm) ->
  ev_slot dm e = slot0 kd nc dict0 L (e_b e) (e_bp e) (e_ch e).
Proof.
  intros e H. unfold ev_slot. apply dm0_slot_eq; auto.
  destruct (log_states e H) as [H1 _]. destruct (so_in _ _ _ _ _ SO H1). auto.
Qed.

Lemma log_slot_unique : forall e b bp c, In e (dm_log dm) -> In b (nth c L []) -> In bp (nth c L []) ->
  (kd = KPauli -> bp = b) -> ev_slot dm e = dm0_slot dm b bp c ->
  e_b e = b /\ e_bp e = bp /\ e_ch e = c.
Proof.
  intros e b bp c H Hb Hbp HP E. destruct (log_states e H) as [H1 H2].
  rewrite ev_slot_eq in E by auto.
  unfold dm in E. rewrite dm0_slot_eq in E by (auto; destruct (so_in _ _ _ _ _ SO Hb); auto).
  eapply slot0_inj; eauto. intros Hk. split; [apply log_pauli_diag; auto|auto].
Qed.

(** reading an element that was entered *)
Lemma get_entered : forall e, In e (dm_log dm) ->
  get_ind_dm0 dm (e_b e) (e_bp e) (e_ch e) = Some (Z.of_nat (e_cnt e)) /\
  get_bool_dm0 dm (e_b e) (e_bp e) (e_ch e) = Some (e_dict e) /\
  get_conj_dm0 dm (e_b e) (e_bp e) (e_ch e) = Some (e_conj e).
Proof.
  intros e H. destruct (log_states e H) as [H1 H2].
  assert (Hs : dm0_slot dm (e_b e) (e_bp e) (e_ch e) < dm0_size dm).
  { fold (ev_slot dm e). rewrite ev_slot_eq by auto. apply slot0_bound; auto. }
  assert (U : forall e', In e' (dm_log dm) -> ev_slot dm e' = dm0_slot dm (e_b e) (e_bp e) (e_ch e) -> e' = e).
  { intros e' H' E. destruct (log_slot_unique e' (e_b e) (e_bp e) (e_ch e)) as (A & B & C); auto.
    - intros Hk. apply log_pauli_diag; auto.
    - apply log_unique; auto. }
  unfold get_ind_dm0, get_bool_dm0, get_conj_dm0, mapdm0, booldm0, conjdm0.
  split; [|split]; apply (writes_at _ (ev_slot dm)); try (rewrite repeat_length; auto); eauto;
    intros e' He' E; rewrite (U e' He' E); reflexivity.
Qed.

Lemma nth_error_repeat' : forall A (v : A) n k, k < n -> nth_error (repeat v n) k = Some v.
Proof. induction n; intros k H; [lia|]. destruct k; simpl; auto. apply IHn. lia. Qed.

(** reading an element that was not entered *)
Lemma get_absent : forall b bp c, In b (nth c L []) -> In bp (nth c L []) ->
  (kd = KPauli -> bp = b) ->
  (forall e, In e (dm_log dm) -> ~ (e_b e = b /\ e_bp e = bp /\ e_ch e = c)) ->
  get_ind_dm0 dm b bp c = Some (-1)%Z /\ get_bool_dm0 dm b bp c = Some false.
Proof.
  intros b bp c Hb Hbp HP HN. destruct (so_in _ _ _ _ _ SO Hb) as [Hc _].
  assert (Hs : dm0_slot dm b bp c < dm0_size dm).
  { unfold dm. rewrite dm0_slot_eq by auto. apply slot0_bound; auto. }
  unfold get_ind_dm0, get_bool_dm0, mapdm0, booldm0.
  split; (rewrite writes_other; [apply nth_error_repeat'; auto|]);
    intros e He E; apply (HN e He); apply log_slot_unique; auto.
Qed.

(** inddm0 *)
Lemma inddm0_build : forall log d,
  fold_left (fun d e => if e_dict e then dict_set Nat.eqb (e_cnt e) (e_b e, e_bp e) d else d) log d
  = fold_left (fun d p => dict_set Nat.eqb (fst p) (snd p) d)
      (map (fun e => (e_cnt e, (e_b e, e_bp e))) (filter e_dict log)) d.
Proof. induction log as [|e log IH]; simpl; intros; auto. destruct (e_dict e); simpl; auto. Qed.

Lemma emit_dict_cnt : forall X (g : nat -> X -> list ev) xs k,
  (forall j x, map e_cnt (filter e_dict (g j x)) = [j]) ->
  map e_cnt (filter e_dict (emit g k xs)) = seq k (length xs).
Proof.
  induction xs; simpl; intros k H; auto. rewrite filter_app, map_app, H, IHxs by auto. reflexivity.
Qed.

Lemma dict_counters : map e_cnt (filter e_dict (dm_log dm)) = seq 0 (length D + length O).
Proof.
  rewrite dm_log_eq, filter_app, map_app, seq_app. f_equal; apply emit_dict_cnt.
  - intros j [c b]. reflexivity.
  - intros j [c [b bp]]. destruct kd; reflexivity.
Qed.

Lemma inddm0_get : forall k b bp, dict_get Nat.eqb k (inddm0 dm) = Some (b, bp) <->
  exists e, In e (dm_log dm) /\ e_dict e = true /\ e_cnt e = k /\ e_b e = b /\ e_bp e = bp.
Proof.
  intros k b bp. unfold inddm0. rewrite inddm0_build. fold (dict_build nat (nat * nat) Nat.eqb
     (map (fun e => (e_cnt e, (e_b e, e_bp e))) (filter e_dict (dm_log dm)))).
  rewrite dict_build_get.
  - rewrite in_map_iff. split.
    + intros (e & E & H). apply filter_In in H. injection E as <- <- <-. exists e. tauto.
    + intros (e & H1 & H2 & <- & <- & <-). exists e. split; auto. apply filter_In. auto.
  - apply Nat.eqb_eq.
  - rewrite map_map. replace (map _ _) with (map e_cnt (filter e_dict (dm_log dm))) by (apply map_ext; auto).
    rewrite dict_counters. apply seq_NoDup.
Qed.
End Numbering.
