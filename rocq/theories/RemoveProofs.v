(** Histories of remove_fock_states calls and the sz blocks. *)
From Coq Require Import String List Arith Lia ZArith Bool Permutation.
From Verif Require Import Base Bits Indexing IndexingProofs.
Import ListNotations.
Open Scope nat_scope.
Local Notation length := List.length.

(** ** positions in a concatenation *)
Lemma nth_concat : forall A (d : A) (L : list (list A)) c q, c < length L -> q < length (nth c L []) ->
  nth (total (firstn c L) + q) (concat L) d = nth q (nth c L []) d.
Proof.
  induction L as [|l L IH]; intros c q Hc Hq; simpl in Hc; [lia|].
  destruct c; simpl in *.
  - now rewrite app_nth1.
  - rewrite app_nth2 by lia. rewrite <- (IH c q) by (auto; lia). f_equal. lia.
Qed.

Lemma total_firstn_bound : forall A (L : list (list A)) c q, c < length L -> q < length (nth c L []) ->
  total (firstn c L) + q < total L.
Proof.
  induction L as [|l L IH]; intros c q Hc Hq; simpl in Hc; [lia|].
  destruct c; simpl in *; [lia|]. specialize (IH c q). lia.
Qed.

Lemma enum_cell : forall (L : list (list nat)) c p, NoDup (concat L) ->
  (In p (nth c (enum_from 0 L) []) <->
   p < total L /\ In (nth p (concat L) 0) (nth c L [])).
Proof.
  intros L c p HN. destruct (Nat.lt_ge_cases c (length L)) as [Hc|Hc].
  - rewrite enum_from_nth by auto. simpl. rewrite in_seq. split.
    + intros [H1 H2]. remember (p - total (firstn c L)) as q eqn:Eq.
      assert (p = total (firstn c L) + q) by lia. subst p.
      split; [apply total_firstn_bound; auto; lia|].
      rewrite nth_concat by (auto; lia). apply nth_In. lia.
    + intros [H1 H2]. apply In_nth with (d := 0) in H2. destruct H2 as (q & Hq & E).
      rewrite <- (nth_concat _ 0 L c q) in E by auto.
      rewrite (NoDup_nth _ 0) in HN. apply HN in E.
      * lia.
      * rewrite total_concat. apply total_firstn_bound; auto.
      * rewrite total_concat. auto.
  - rewrite (nth_overflow (enum_from 0 L)) by (rewrite enum_from_length; auto).
    rewrite (nth_overflow L) by auto. simpl. tauto.
Qed.

Lemma enum2_from_length : forall L c, length (enum2_from c L) = length L.
Proof. induction L; simpl; auto. Qed.

Lemma enum2_row : forall L c s, c < length L ->
  nth c (enum2_from s L) [] = enum_from (s + total (concat (firstn c L))) (nth c L []).
Proof.
  induction L as [|l L IH]; intros c s Hc; simpl in Hc; [lia|].
  destruct c; simpl.
  - now rewrite Nat.add_0_r.
  - rewrite IH by lia. f_equal. rewrite <- !total_concat, concat_app, app_length. lia.
Qed.

Lemma enum_from_shift : forall A (L : list (list A)) s, enum_from s L = map (map (Nat.add s)) (enum_from 0 L).
Proof.
  intros A L. assert (G : forall s t, enum_from (s + t) L = map (map (Nat.add s)) (enum_from t L)).
  { induction L as [|l L IH]; simpl; intros; auto. f_equal.
    - clear. revert t. generalize (length l). induction n; simpl; intros; auto.
      rewrite <- IHn. f_equal. f_equal. lia.
    - rewrite <- IH. f_equal. lia. }
  intros. rewrite <- G. f_equal. lia.
Qed.

Lemma concat_firstn_app : forall A (L : list (list A)) c,
  concat L = concat (firstn c L) ++ concat (skipn c L).
Proof. intros. rewrite <- concat_app. now rewrite firstn_skipn. Qed.

Lemma skipn_nth : forall A (d : A) L c, c < length L -> skipn c L = nth c L d :: skipn (S c) L.
Proof. induction L; destruct c; simpl; intros; auto; try lia. apply IHL; lia. Qed.

Lemma enum2_cell : forall (L : list (list (list nat))) c k p, NoDup (concat (concat L)) ->
  (In p (nth k (nth c (enum2_from 0 L) []) []) <->
   p < total (concat L) /\ In (nth p (concat (concat L)) 0) (nth k (nth c L []) [])).
Proof.
  intros L c k p HN. destruct (Nat.lt_ge_cases c (length L)) as [Hc|Hc].
  - rewrite enum2_row by auto. simpl.
    destruct (Nat.lt_ge_cases k (length (nth c L []))) as [Hk|Hk].
    2: { rewrite (nth_overflow (enum_from _ _)) by (rewrite enum_from_length; auto).
         rewrite (nth_overflow (nth c L [])) by auto. simpl. tauto. }
    (* the cell is block number (number of earlier cells) of concat L *)
    pose (m := length (concat (firstn c L)) + k).
    assert (Em : nth m (concat L) [] = nth k (nth c L []) []).
    { unfold m. rewrite (concat_firstn_app _ L c). rewrite app_nth2 by lia.
      rewrite (skipn_nth _ [] L c Hc). simpl.
      replace (length (concat (firstn c L)) + k - length (concat (firstn c L))) with k by lia.
      now rewrite app_nth1. }
    assert (Hm : m < length (concat L)).
    { unfold m. rewrite (concat_firstn_app _ L c), app_length, (skipn_nth _ [] L c Hc).
      simpl. rewrite app_length. lia. }
    assert (Ee : nth k (enum_from (total (concat (firstn c L))) (nth c L [])) []
                 = nth m (enum_from 0 (concat L)) []).
    { rewrite (enum_from_nth (concat L) 0 Hm), enum_from_nth by auto. rewrite Em. f_equal.
      simpl. unfold m. rewrite (concat_firstn_app _ L c), (skipn_nth _ [] L c Hc). simpl.
      rewrite firstn_app.
      replace (length (concat (firstn c L)) + k - length (concat (firstn c L))) with k by lia.
      rewrite (@firstn_all2 _ (length (concat (firstn c L)) + k) (concat (firstn c L))) by lia.
      rewrite firstn_app.
      replace (k - length (nth c L [])) with 0 by lia. simpl. rewrite app_nil_r.
      rewrite <- (total_concat (concat (firstn c L) ++ _)), concat_app, app_length, !total_concat. auto. }
    rewrite Ee, <- Em. apply enum_cell; auto.
  - assert (E1 : nth c (enum2_from 0 L) [] = []) by
      (apply nth_overflow; rewrite enum2_from_length; auto).
    assert (E2 : nth c L [] = []) by (apply nth_overflow; auto).
    rewrite E1, E2. destruct k; simpl; tauto.
Qed.

(** ** keep_block and friends *)
Definition kill (r : list bool) (xs : list nat) (j : list (option nat)) : list (option nat) :=
  fold_left (fun j x => if nth x r false then set_nth x None j else j) xs j.

Definition alive (r : list bool) (x : nat) : bool := negb (nth x r false).

Lemma keep_block_gen : forall r b acc j,
  fold_left
    (fun st j1 =>
       let '(kept, j) := st in
       if nth j1 r false then (kept, set_nth j1 None j) else (kept ++ [j1], j))
    b (acc, j) = (acc ++ filter (alive r) b, kill r b j).
Proof.
  unfold kill, alive. induction b as [|x b IH]; simpl; intros.
  - now rewrite app_nil_r.
  - destruct (nth x r false); simpl; rewrite IH; auto. now rewrite <- app_assoc.
Qed.

Lemma keep_block_eq : forall r b j, keep_block r b j = (filter (alive r) b, kill r b j).
Proof. intros. unfold keep_block. now rewrite keep_block_gen. Qed.

Lemma kill_app : forall r a b j, kill r (a ++ b) j = kill r b (kill r a j).
Proof. intros. unfold kill. now rewrite fold_left_app. Qed.

Lemma keep_blocks_eq : forall r L j,
  keep_blocks r L j = (map (filter (alive r)) L, kill r (concat L) j).
Proof.
  intros r L j. unfold keep_blocks.
  assert (G : forall L acc j, fold_left
    (fun st block =>
       let '(acc, j) := st in
       let '(kept, j') := keep_block r block j in
       (acc ++ [kept], j')) L (acc, j) = (acc ++ map (filter (alive r)) L, kill r (concat L) j)).
  { clear. induction L as [|b L IH]; simpl; intros.
    - now rewrite app_nil_r.
    - rewrite keep_block_eq. rewrite IH, kill_app, <- app_assoc. reflexivity. }
  rewrite G. reflexivity.
Qed.

Lemma keep_blocks2_eq : forall r L j,
  keep_blocks2 r L j = (map (map (filter (alive r))) L, kill r (concat (concat L)) j).
Proof.
  intros r L j. unfold keep_blocks2.
  assert (G : forall L acc j, fold_left
    (fun st row =>
       let '(acc, j) := st in
       let '(row', j') := keep_blocks r row j in
       (acc ++ [row'], j')) L (acc, j)
    = (acc ++ map (map (filter (alive r))) L, kill r (concat (concat L)) j)).
  { clear. induction L as [|b L IH]; simpl; intros.
    - now rewrite app_nil_r.
    - rewrite keep_blocks_eq. rewrite IH, concat_app, kill_app, <- app_assoc. reflexivity. }
  rewrite G. reflexivity.
Qed.

Lemma kill_length : forall r xs j, length (kill r xs j) = length j.
Proof.
  unfold kill. induction xs; simpl; intros; auto. rewrite IHxs.
  destruct (nth a r false); auto. apply set_nth_length.
Qed.

Lemma kill_none_stays : forall r xs j x, nth_error j x = Some None ->
  nth_error (kill r xs j) x = Some None.
Proof.
  unfold kill. induction xs as [|y xs IH]; simpl; intros; auto. apply IH.
  destruct (nth y r false); auto.
  destruct (Nat.eq_dec y x) as [->|E].
  - apply nth_error_set_same. apply nth_error_Some. congruence.
  - rewrite nth_error_set_other; auto.
Qed.

Lemma kill_in : forall r xs j x, In x xs -> nth x r false = true -> x < length j ->
  nth_error (kill r xs j) x = Some None.
Proof.
  unfold kill. induction xs as [|y xs IH]; simpl; intros j x Hin Hr Hx; [contradiction|].
  destruct Hin as [->|Hin].
  - rewrite Hr. apply (kill_none_stays r xs). now apply nth_error_set_same.
  - apply IH; auto. destruct (nth y r false); auto. now rewrite set_nth_length.
Qed.

(** ** the flags *)
Lemma mark_removed_length : forall lin r, length (mark_removed lin r) = length r.
Proof.
  unfold mark_removed. induction lin; simpl; intros; auto. rewrite IHlin. apply set_nth_length.
Qed.

Lemma mark_removed_nth : forall lin r x, (forall k, In k lin -> k < length r) -> x < length r ->
  nth x (mark_removed lin r) false = (nth x r false || existsb (Nat.eqb x) lin)%bool.
Proof.
  unfold mark_removed. induction lin as [|y lin IH]; simpl; intros r x Hr Hx.
  - now rewrite orb_false_r.
  - rewrite IH.
    + destruct (Nat.eqb_spec x y) as [->|E].
      * rewrite nth_set_same by auto. now rewrite orb_true_r.
      * rewrite nth_set_other by auto. reflexivity.
    + intros. rewrite set_nth_length. auto.
    + now rewrite set_nth_length.
Qed.

Lemma count_alive : forall r,
  length (filter (alive r) (seq 0 (length r))) + sumn (map b2n r) = length r.
Proof.
  intros r. unfold alive.
  assert (G : forall r s, length (filter (fun x => negb (nth (x - s) r false)) (seq s (length r)))
                          + sumn (map b2n r) = length r).
  { clear. induction r as [|b r IH]; intros s; auto. simpl length. cbn [seq filter].
    rewrite Nat.sub_diag. simpl nth at 1.
    specialize (IH (S s)).
    rewrite (filter_ext_in _ (fun x => negb (nth (x - S s) r false))).
    - destruct b; simpl; lia.
    - intros x Hx. apply in_seq in Hx. destruct (x - s) eqn:E; [lia|].
      simpl. replace (x - S s) with n by lia. reflexivity. }
  specialize (G r 0).
  rewrite (filter_ext (fun x => negb (nth (x - 0) r false)) (fun x => negb (nth x r false))) in G; auto.
  intros; now rewrite Nat.sub_0_r.
Qed.

Lemma filter_filter : forall A (f g : A -> bool) l,
  filter f (filter g l) = filter (fun x => (f x && g x)%bool) l.
Proof.
  induction l; simpl; auto. destruct (g a) eqn:E; simpl; rewrite ?E, ?IHl.
  - destruct (f a); reflexivity.
  - rewrite andb_false_r. reflexivity.
Qed.

(** ** Block lists restricted to live states *)
Definition live_blocks (n : nat) (live : nat -> bool) : list (list nat) :=
  map (fun c => filter live (filter (fun k => occ_charge n k =? c) (seq 0 (2 ^ n)))) (seq 0 (n + 1)).

Definition live_szblocks (n : nat) (live : nat -> bool) : list (list (list nat)) :=
  map (fun c => map (fun k => filter live (filter (fun x => occ_szind n x =? k)
                       (filter (fun x => occ_charge n x =? c) (seq 0 (2 ^ n)))))
      (seq 0 (length (szrange c n)))) (seq 0 (n + 1)).

Lemma live_blocks_map : forall n (f live : nat -> bool),
  map (filter f) (live_blocks n live) = live_blocks n (fun x => (f x && live x)%bool).
Proof.
  intros. unfold live_blocks. rewrite map_map. apply map_ext. intros c. apply filter_filter.
Qed.

Lemma live_szblocks_map : forall n (f live : nat -> bool),
  map (map (filter f)) (live_szblocks n live) = live_szblocks n (fun x => (f x && live x)%bool).
Proof.
  intros. unfold live_szblocks. rewrite map_map. apply map_ext. intros c.
  rewrite map_map. apply map_ext. intros k. apply filter_filter.
Qed.

Lemma live_blocks_ext : forall n (l1 l2 : nat -> bool), (forall x, x < 2 ^ n -> l1 x = l2 x) ->
  live_blocks n l1 = live_blocks n l2.
Proof.
  intros. unfold live_blocks. apply map_ext. intros c. apply filter_ext_in.
  intros x Hx. apply H. apply filter_In in Hx. destruct Hx as [Hx _]. apply in_seq in Hx. lia.
Qed.

Lemma live_szblocks_ext : forall n (l1 l2 : nat -> bool), (forall x, x < 2 ^ n -> l1 x = l2 x) ->
  live_szblocks n l1 = live_szblocks n l2.
Proof.
  intros. unfold live_szblocks. apply map_ext. intros c. apply map_ext. intros k. apply filter_ext_in.
  intros x Hx. apply H. apply filter_In in Hx. destruct Hx as [Hx _].
  apply filter_In in Hx. destruct Hx as [Hx _]. apply in_seq in Hx. lia.
Qed.

Lemma filter_true : forall A (l : list A), filter (fun _ => true) l = l.
Proof. induction l; simpl; congruence. Qed.

Lemma construct_chargelst_live : forall n, construct_chargelst n = live_blocks n all_live.
Proof.
  intros. rewrite construct_chargelst_spec. unfold live_blocks. apply map_ext. intros c.
  unfold all_live. now rewrite filter_true.
Qed.

Lemma construct_szlst_live : forall n, construct_szlst n = live_szblocks n all_live.
Proof.
  intros. rewrite (list_as_map_nth _ [] (construct_szlst n)), construct_szlst_length.
  unfold live_szblocks. apply map_ext_in. intros c Hc. apply in_seq in Hc.
  rewrite construct_szlst_row by lia. apply map_ext. intros k. unfold all_live.
  now rewrite filter_true.
Qed.

Lemma live_blocks_length : forall n live, length (live_blocks n live) = n + 1.
Proof. intros. unfold live_blocks. now rewrite map_length, seq_length. Qed.

Lemma live_blocks_in : forall n live x,
  In x (concat (live_blocks n live)) <-> x < 2 ^ n /\ live x = true.
Proof.
  intros n live x. unfold live_blocks. rewrite in_concat. split.
  - intros (b & Hb & Hx). apply in_map_iff in Hb. destruct Hb as (c & <- & Hc).
    apply filter_In in Hx. destruct Hx as [Hx Hl]. apply filter_In in Hx. destruct Hx as [Hx _].
    apply in_seq in Hx. split; [lia|auto].
  - intros [H1 H2].
    exists (filter live (filter (fun k => occ_charge n k =? occ_charge n x) (seq 0 (2 ^ n)))). split.
    + apply in_map_iff. exists (occ_charge n x). split; auto. apply in_seq.
      pose proof (occ_charge_le n x H1). lia.
    + apply filter_In. split; auto. apply filter_In. split.
      * apply in_seq. lia.
      * apply Nat.eqb_refl.
Qed.

Lemma live_blocks_key : forall n live c x, c <= n ->
  In x (nth c (live_blocks n live) []) -> occ_charge n x = c.
Proof.
  intros n live c x Hc H. unfold live_blocks in H. rewrite nth_map_seq in H by lia.
  apply filter_In in H. destruct H as [H _]. apply filter_In in H. destruct H as [_ H].
  now apply Nat.eqb_eq.
Qed.

Lemma NoDup_concat_filter : forall A (f : A -> bool) (L : list (list A)),
  NoDup (concat L) -> NoDup (concat (map (filter f) L)).
Proof.
  intros A f L H. replace (concat (map (filter f) L)) with (filter f (concat L)).
  - now apply filter_NoDup.
  - clear. induction L; simpl; auto. now rewrite filter_app, IHL.
Qed.

Lemma live_blocks_all_true : forall n live,
  live_blocks n live = map (filter live) (construct_chargelst n).
Proof.
  intros. rewrite construct_chargelst_live, live_blocks_map. apply live_blocks_ext.
  intros. unfold all_live. now rewrite andb_true_r.
Qed.

Lemma live_szblocks_all_true : forall n live,
  live_szblocks n live = map (map (filter live)) (construct_szlst n).
Proof.
  intros. rewrite construct_szlst_live, live_szblocks_map. apply live_szblocks_ext.
  intros. unfold all_live. now rewrite andb_true_r.
Qed.

Lemma live_blocks_nodup : forall n live, NoDup (concat (live_blocks n live)).
Proof.
  intros. rewrite live_blocks_all_true. apply NoDup_concat_filter, construct_chargelst_nodup.
Qed.

Lemma live_blocks_count : forall n live,
  length (concat (live_blocks n live)) = length (filter live (seq 0 (2 ^ n))).
Proof.
  intros. apply Permutation_length. apply NoDup_Permutation.
  - apply live_blocks_nodup.
  - apply filter_NoDup, seq_NoDup.
  - intros x. rewrite live_blocks_in, filter_In, in_seq. split; intros [H1 H2]; split; auto; lia.
Qed.

Lemma Permutation_filter : forall A (f : A -> bool) l l', Permutation l l' ->
  Permutation (filter f l) (filter f l').
Proof.
  induction 1; simpl; auto.
  - destruct (f x); auto.
  - destruct (f x), (f y); auto. constructor.
  - eapply perm_trans; eauto.
Qed.

Lemma concat_map_filter : forall A (f : A -> bool) L,
  concat (map (filter f) L) = filter f (concat L).
Proof. induction L; simpl; auto. now rewrite filter_app, IHL. Qed.

Lemma live_szrow_perm : forall n live c, Nat.even n = true -> c <= n ->
  Permutation (concat (nth c (live_szblocks n live) [])) (nth c (live_blocks n live) []).
Proof.
  intros n live c He Hc. unfold live_szblocks, live_blocks. rewrite !nth_map_seq by lia.
  rewrite <- (map_map (fun k => filter (fun x => occ_szind n x =? k)
                       (filter (fun x => occ_charge n x =? c) (seq 0 (2 ^ n)))) (filter live)).
  rewrite concat_map_filter. apply Permutation_filter.
  rewrite <- construct_szlst_row by auto. now apply szrow_perm.
Qed.

Lemma live_szblocks_length : forall n live, length (live_szblocks n live) = n + 1.
Proof. intros. unfold live_szblocks. now rewrite map_length, seq_length. Qed.

Lemma live_szrow_length : forall n live c, c <= n ->
  length (nth c (live_szblocks n live) []) = length (szrange c n).
Proof.
  intros. unfold live_szblocks. rewrite nth_map_seq by lia. now rewrite map_length, seq_length.
Qed.

(** ** sz blocks specification *)
Definition sz_ok (si : SI) : Prop :=
  exists szlst, si_szlst si = Some szlst /\ length szlst = si_nsingle si + 1 /\
  forall c, c <= si_nsingle si ->
    length (nth c szlst []) = length (szrange c (si_nsingle si)) /\
    forall k, k < length (szrange c (si_nsingle si)) ->
      (exists s len, nth k (nth c szlst []) [] = seq s len) /\
      forall p, In p (nth k (nth c szlst []) []) <->
        p < length (si_i si) /\
        occ_charge (si_nsingle si) (nth p (si_i si) 0) = c /\
        occ_sz (si_nsingle si) (nth p (si_i si) 0) = nth k (szrange c (si_nsingle si)) 0%Z.

Lemma enum_from_row_seq : forall A (L : list (list A)) s k,
  exists a len, nth k (enum_from s L) [] = seq a len.
Proof.
  intros. destruct (Nat.lt_ge_cases k (length L)).
  - rewrite enum_from_nth by auto. eauto.
  - rewrite nth_overflow by (rewrite enum_from_length; auto). exists 0, 0. reflexivity.
Qed.

Lemma live_sz_nodup : forall n live, Nat.even n = true ->
  NoDup (concat (concat (live_szblocks n live))).
Proof.
  intros. rewrite concat_concat. eapply Permutation_NoDup with (l := concat (live_blocks n live)).
  - symmetry.
    destruct (flatten_rows_perm_total (live_szblocks n live) (live_blocks n live)) as [_ P].
    + now rewrite live_szblocks_length, live_blocks_length.
    + intros c Hc. rewrite live_blocks_length in Hc. apply live_szrow_perm; auto; lia.
    + rewrite <- concat_concat. exact P.
  - apply live_blocks_nodup.
Qed.

(** For n >= 2 even, the index is equivalent to the sz value. *)
Lemma occ_szind_iff : forall n x k, Nat.even n = true -> x < 2 ^ n ->
  k < length (szrange (occ_charge n x) n) ->
  (occ_szind n x = k <-> occ_sz n x = nth k (szrange (occ_charge n x) n) 0%Z).
Proof.
  intros n x k He Hx Hk. destruct n.
  - simpl in Hx. assert (x = 0) by lia. subst. vm_compute in Hk. assert (k = 0) by lia. subst.
    vm_compute. tauto.
  - apply szind_iff; auto. apply occ_length; auto; lia.
Qed.

Lemma sz_blocks_ok : forall n live clin cl ssql j rem nm nm_ ixs, Nat.even n = true ->
  let L := live_szblocks n live in
  sz_ok (mkSI n ixs (n + 1) nm clin cl (Some L) (Some (enum_szlst L)) ssql (concat (concat L)) j rem nm_).
Proof.
  intros n live clin cl ssql j rem nm nm_ ixs He L.
  exists (enum_szlst L). unfold enum_szlst. simpl. repeat split.
  - rewrite enum2_from_length. apply live_szblocks_length.
  - rewrite enum2_row by (unfold L; rewrite live_szblocks_length; lia).
    rewrite enum_from_length. apply live_szrow_length; auto.
  - rewrite enum2_row by (unfold L; rewrite live_szblocks_length; lia).
    apply enum_from_row_seq.
  - apply enum2_cell in H1; [|apply live_sz_nodup; auto].
    destruct H1 as [H1 _]. now rewrite total_concat.
  - apply enum2_cell in H1; [|apply live_sz_nodup; auto].
    destruct H1 as [_ H1]. unfold L at 2 in H1. unfold live_szblocks in H1 at 1.
    rewrite !nth_map_seq in H1 by (auto; lia).
    apply filter_In in H1. destruct H1 as [H1 _]. apply filter_In in H1. destruct H1 as [H1 _].
    apply filter_In in H1. destruct H1 as [_ H1]. now apply Nat.eqb_eq.
  - apply enum2_cell in H1; [|apply live_sz_nodup; auto].
    destruct H1 as [_ H1]. unfold L at 2 in H1. unfold live_szblocks in H1 at 1.
    rewrite !nth_map_seq in H1 by (auto; lia).
    apply filter_In in H1. destruct H1 as [H1 _]. apply filter_In in H1. destruct H1 as [H1 H2].
    apply filter_In in H1. destruct H1 as [H1 H3]. apply Nat.eqb_eq in H2, H3.
    apply in_seq in H1. rewrite <- H3 in *. apply occ_szind_iff; auto; lia.
  - intros (H1 & H2 & H3). apply enum2_cell; [apply live_sz_nodup; auto|].
    split; [now rewrite <- total_concat|].
    fold L. set (x := nth p (concat (concat L)) 0) in *.
    assert (Hx : In x (concat (concat L))) by (apply nth_In; auto).
    assert (Hx' : x < 2 ^ n /\ live x = true).
    { apply live_blocks_in.
      destruct (flatten_rows_perm_total (live_szblocks n live) (live_blocks n live)) as [_ P].
      + now rewrite live_szblocks_length, live_blocks_length.
      + intros d Hd. rewrite live_blocks_length in Hd. apply live_szrow_perm; auto; lia.
      + eapply Permutation_in; eauto. }
    unfold L, live_szblocks. rewrite !nth_map_seq by (auto; lia).
    apply filter_In. split; [|apply Hx']. apply filter_In. split.
    + apply filter_In. split; [apply in_seq; lia|]. now apply Nat.eqb_eq.
    + apply Nat.eqb_eq. rewrite <- H2 in *. apply occ_szind_iff; auto; try lia.
Qed.

(** ** invariant along histories *)
Record hist_inv (si : SI) (live : nat -> bool) : Prop := {
  hi_ok : si_ok si live;
  hi_ncharge : si_ncharge si = si_nsingle si + 1;
  hi_nmany_ : si_nmany_ si = 2 ^ si_nsingle si;
  hi_removed : match si_removed si with
               | None => si_nmany si = 2 ^ si_nsingle si /\
                         forall x, x < 2 ^ si_nsingle si -> live x = true
               | Some r => length r = 2 ^ si_nsingle si /\
                           forall x, x < 2 ^ si_nsingle si -> live x = alive r x
               end;
  hi_ix : match si_indexing si with
          | IxCharge => si_chargelst_lin si = live_blocks (si_nsingle si) live
          | IxSz => Nat.even (si_nsingle si) = true /\
                    si_chargelst_lin si = live_blocks (si_nsingle si) live /\
                    si_szlst_lin si = Some (live_szblocks (si_nsingle si) live) /\
                    sz_ok si
          | _ => False
          end
}.

Lemma ix_of_even : forall name n, (ix_of name n = IxSz \/ ix_of name n = IxSsq) -> Nat.even n = true.
Proof.
  intros name n H. unfold ix_of in H. destruct (String.eqb name "charge").
  - destruct H; discriminate.
  - destruct (Nat.even n); auto. rewrite andb_false_r in H. destruct H; discriminate.
Qed.

Lemma init_ix : forall name n, si_indexing (si_init n name) = ix_of name n.
Proof. intros. unfold si_init. destruct (ix_of name n); reflexivity. Qed.

Lemma init_n : forall name n, si_nsingle (si_init n name) = n.
Proof. intros. unfold si_init. destruct (ix_of name n); reflexivity. Qed.

Lemma si_init_sz_ok : forall n name, (ix_of name n = IxSz \/ ix_of name n = IxSsq) ->
  sz_ok (si_init n name).
Proof.
  intros n name H. pose proof (ix_of_even _ _ H) as He. unfold si_init, flatten.
  destruct H as [H|H]; rewrite H; rewrite construct_szlst_live; apply sz_blocks_ok; auto.
Qed.

Lemma init_hist : forall n name, (ix_of name n = IxCharge \/ ix_of name n = IxSz) ->
  hist_inv (si_init n name) all_live.
Proof.
  intros n name H. pose proof (si_init_ok n name) as OK.
  assert (SZ : ix_of name n = IxSz -> sz_ok (si_init n name)).
  { intros. apply si_init_sz_ok; auto. }
  assert (EV : ix_of name n = IxSz -> Nat.even n = true).
  { intros. eapply ix_of_even; eauto. }
  constructor; auto; unfold si_init in *; destruct (ix_of name n) eqn:E;
    try (destruct H; discriminate); simpl; auto.
  - apply construct_chargelst_live.
  - split; [auto|]. split; [apply construct_chargelst_live|].
    split; auto. f_equal. apply construct_szlst_live.
Qed.

Definition minus (live : nat -> bool) (lin : list nat) : nat -> bool :=
  fun x => (live x && negb (existsb (Nat.eqb x) lin))%bool.

Lemma step_hist : forall si live lin, hist_inv si live ->
  (forall k, In k lin -> k < 2 ^ si_nsingle si) ->
  exists si', remove_fock_states si lin = Some si' /\ hist_inv si' (minus live lin) /\
    si_nsingle si' = si_nsingle si /\ si_indexing si' = si_indexing si.
Proof.
  intros si live lin HI Hlin.
  pose proof (hi_ok _ _ HI) as OK.
  remember (match si_removed si with None => repeat false (si_nmany si) | Some r => r end) as r0.
  assert (Hr0 : length r0 = 2 ^ si_nsingle si /\
                forall x, x < 2 ^ si_nsingle si -> live x = alive r0 x).
  { pose proof (hi_removed _ _ HI) as HR. destruct (si_removed si) eqn:E; subst r0; auto.
    destruct HR as [H1 H2]. split; [now rewrite repeat_length|].
    intros x Hx. rewrite H2 by auto. unfold alive. now rewrite nth_repeat. }
  destruct Hr0 as [Hr0l Hr0].
  set (r := mark_removed lin r0).
  assert (Hrl : length r = 2 ^ si_nsingle si) by (unfold r; rewrite mark_removed_length; auto).
  assert (Hr : forall x, x < 2 ^ si_nsingle si -> minus live lin x = alive r x).
  { intros x Hx. unfold minus, alive, r. rewrite mark_removed_nth; auto; try lia.
    - rewrite Hr0 by auto. unfold alive. now rewrite negb_orb.
    - intros k Hk. rewrite Hr0l. auto. }
  assert (Hb : forallb (fun k => k <? length r0) lin = true).
  { apply forallb_forall. intros k Hk. apply Nat.ltb_lt. rewrite Hr0l. auto. }
  assert (Hmm : forall x, x < 2 ^ si_nsingle si -> (alive r x && live x)%bool = minus live lin x).
  { intros x Hx. rewrite <- Hr by auto. unfold minus. destruct (live x); simpl; auto. now rewrite andb_true_r.
    }
  (* dead states have None after killing the live-but-removed ones *)
  assert (HJ : forall xs, (forall x, x < 2 ^ si_nsingle si -> live x = true -> In x xs) ->
     forall x, x < 2 ^ si_nsingle si -> minus live lin x = false ->
     nth_error (kill r xs (si_j si)) x = Some None).
  { intros xs Hxs x Hx Hm. destruct (live x) eqn:El.
    - apply kill_in; auto.
      + rewrite Hr in Hm by auto. unfold alive in Hm. now apply negb_false_iff in Hm.
      + rewrite (ok_j_len _ _ OK). auto.
    - apply kill_none_stays. apply (ok_j_dead _ _ OK); auto. }
  assert (HNM : si_nmany_ si - sumn (map b2n r) =
                length (concat (live_blocks (si_nsingle si) (minus live lin)))).
  { rewrite (hi_nmany_ _ _ HI), live_blocks_count.
    rewrite (filter_ext_in _ (alive r)).
    - pose proof (count_alive r) as C. rewrite Hrl in C. lia.
    - intros x Hx. apply in_seq in Hx. apply Hr. lia. }
  unfold remove_fock_states. rewrite <- Heqr0.
  pose proof (hi_ix _ _ HI) as HX.
  destruct (si_indexing si) eqn:EX; try contradiction.
  - (* charge *)
    rewrite Hb. fold r. rewrite keep_blocks_eq. rewrite HX.
    rewrite live_blocks_map.
    rewrite (live_blocks_ext _ _ (minus live lin) Hmm).
    eexists. split; [reflexivity|]. split; [|split; reflexivity].
    constructor; simpl; auto.
    + rewrite (hi_ncharge _ _ HI). apply blocks_ok; auto using live_blocks_length.
      * intros; eapply live_blocks_key; eauto.
      * intros; apply live_blocks_in.
      * apply live_blocks_nodup.
      * rewrite kill_length. apply (ok_j_len _ _ OK).
      * apply HJ. intros. apply live_blocks_in. auto.
    + apply (hi_ncharge _ _ HI).
    + apply (hi_nmany_ _ _ HI).
  - (* sz *)
    destruct HX as (He & HX1 & HX2 & HX3).
    rewrite Hb. fold r. rewrite keep_blocks_eq. rewrite HX1, HX2.
    rewrite live_blocks_map. rewrite (live_blocks_ext _ _ (minus live lin) Hmm).
    rewrite keep_blocks2_eq. rewrite live_szblocks_map.
    rewrite (live_szblocks_ext _ _ (minus live lin) Hmm).
    eexists. split; [reflexivity|]. split; [|split; reflexivity].
    unfold flatten.
    assert (HPt : Permutation
        (concat (concat (live_szblocks (si_nsingle si) (minus live lin))))
        (concat (live_blocks (si_nsingle si) (minus live lin)))).
    { apply flatten_rows_perm_total.
      + now rewrite live_szblocks_length, live_blocks_length.
      + intros d Hd. rewrite live_blocks_length in Hd. apply live_szrow_perm; auto; lia. }
    constructor; simpl; auto.
    + rewrite (hi_ncharge _ _ HI). rewrite concat_concat. apply blocks_ok; auto using live_blocks_length.
      * rewrite map_length. apply live_szblocks_length.
      * intros c Hc. change (@nil nat) with (@concat nat []). rewrite map_nth.
        apply live_szrow_perm; auto.
      * intros; eapply live_blocks_key; eauto.
      * intros; apply live_blocks_in.
      * apply live_blocks_nodup.
      * rewrite !kill_length. apply (ok_j_len _ _ OK).
      * intros x Hx Hm. apply kill_none_stays. apply HJ; auto. intros. apply live_blocks_in. auto.
      * rewrite HNM, <- concat_concat. symmetry. now apply Permutation_length.
    + apply (hi_ncharge _ _ HI).
    + apply (hi_nmany_ _ _ HI).
    + split; auto. split; auto. split; auto.
      rewrite (hi_ncharge _ _ HI). apply sz_blocks_ok; auto.
Qed.

Lemma minus_minus : forall ops live x,
  fold_left minus ops live x = (live x && negb (existsb (Nat.eqb x) (concat ops)))%bool.
Proof.
  induction ops as [|lin ops IH]; simpl; intros.
  - now rewrite andb_true_r.
  - rewrite IH. unfold minus. rewrite existsb_app, negb_orb, andb_assoc. reflexivity.
Qed.

Lemma hist_many : forall ops si live, hist_inv si live ->
  (forall k, In k (concat ops) -> k < 2 ^ si_nsingle si) ->
  exists si', remove_many si ops = Some si' /\ hist_inv si' (fold_left minus ops live) /\
    si_nsingle si' = si_nsingle si /\ si_indexing si' = si_indexing si.
Proof.
  induction ops as [|lin ops IH]; simpl; intros si live HI Hk.
  - eauto.
  - destruct (step_hist si live lin HI) as (si1 & E1 & H1 & H2 & H3).
    + intros; apply Hk, in_or_app; auto.
    + rewrite E1. destruct (IH si1 _ H1) as (si' & E & H4 & H5 & H6).
      * rewrite H2. intros; apply Hk, in_or_app; auto.
      * exists si'. split; [auto|]. split; [exact H4|]. split; congruence.
Qed.

Lemma si_ok_ext : forall si l1 l2, (forall x, x < 2 ^ si_nsingle si -> l1 x = l2 x) ->
  si_ok si l1 -> si_ok si l2.
Proof.
  intros si l1 l2 H OK. constructor.
  - apply (ok_i_nodup _ _ OK).
  - intros x. rewrite (ok_i_in _ _ OK).
    split; intros [A B]; split; auto; [rewrite <- H|rewrite H]; auto.
  - apply (ok_nmany _ _ OK).
  - apply (ok_j_len _ _ OK).
  - apply (ok_j_at _ _ OK).
  - intros x Hx Hl. apply (ok_j_dead _ _ OK); auto. rewrite H; auto.
  - apply (ok_cl_len _ _ OK).
  - apply (ok_cl_in _ _ OK).
  - apply (ok_cl_nodup _ _ OK).
Qed.

(** Fock states that are not in the list of removed Lin indices. *)
Definition not_removed (removed : list nat) (x : nat) : bool :=
  negb (existsb (Nat.eqb x) removed).

Theorem remove_history_ok : forall n name ops,
  (ix_of name n = IxCharge \/ ix_of name n = IxSz) ->
  (forall k, In k (concat ops) -> k < 2 ^ n) ->
  exists si, remove_many (si_init n name) ops = Some si /\
    si_nsingle si = n /\ si_indexing si = ix_of name n /\
    si_ok si (not_removed (concat ops)) /\
    (ix_of name n = IxSz -> sz_ok si).
Proof.
  intros n name ops Hix Hk.
  destruct (hist_many ops (si_init n name) all_live) as (si & E & H1 & H2 & H3).
  - apply init_hist; auto.
  - rewrite init_n. auto.
  - exists si. rewrite init_n in H2. rewrite init_ix in H3.
    split; [auto|]. split; [auto|]. split; [auto|]. split.
    + eapply si_ok_ext; [|apply (hi_ok _ _ H1)].
      intros x _. rewrite minus_minus. reflexivity.
    + intros Es. pose proof (hi_ix _ _ H1) as HX. rewrite H3, Es in HX. tauto.
Qed.

(** 'Lin': one call is right. *)
Theorem remove_lin_once_ok : forall n name lin, ix_of name n = IxLin ->
  (forall k, In k lin -> k < 2 ^ n) ->
  exists si, remove_fock_states (si_init n name) lin = Some si /\
    si_nsingle si = n /\ si_ok si (not_removed lin).
Proof.
  intros n name lin Hix Hlin. pose proof (si_init_ok n name) as OK.
  unfold si_init in *. rewrite Hix in *. unfold remove_fock_states. simpl.
  assert (Hb : forallb (fun k => k <? length (repeat false (2 ^ n))) lin = true).
  { apply forallb_forall. intros k Hk. apply Nat.ltb_lt. rewrite repeat_length. auto. }
  rewrite Hb. rewrite keep_blocks_eq.
  set (r := mark_removed lin (repeat false (2 ^ n))).
  assert (Hrl : length r = 2 ^ n) by (unfold r; rewrite mark_removed_length, repeat_length; auto).
  assert (Hr : forall x, x < 2 ^ n -> not_removed lin x = alive r x).
  { intros x Hx. unfold not_removed, alive, r. rewrite mark_removed_nth.
    - rewrite nth_repeat. reflexivity.
    - intros; rewrite repeat_length; auto.
    - now rewrite repeat_length. }
  eexists. split; [reflexivity|]. split; [reflexivity|]. unfold flatten.
  rewrite construct_chargelst_live, live_blocks_map.
  rewrite (live_blocks_ext n _ (not_removed lin)).
  2: { intros x Hx. rewrite Hr by auto. unfold all_live. now rewrite andb_true_r. }
  apply blocks_ok; auto using live_blocks_length.
  - intros; eapply live_blocks_key; eauto.
  - intros; apply live_blocks_in.
  - apply live_blocks_nodup.
  - rewrite kill_length. apply (ok_j_len _ _ OK).
  - intros x Hx Hm. apply kill_in.
    + apply live_blocks_in. auto.
    + rewrite Hr in Hm by auto. unfold alive in Hm. now apply negb_false_iff in Hm.
    + pose proof (ok_j_len _ _ OK) as E. simpl in E. rewrite E. auto.
  - rewrite live_blocks_count. rewrite (filter_ext_in _ (alive r)).
    + pose proof (count_alive r) as C. rewrite Hrl in C. lia.
    + intros x Hx. apply in_seq in Hx. apply Hr. lia.
Qed.

(** 'Lin': a second call reads the re-enumerated chargelst as Lin indices (indexing.py 628) and
    the result is wrong: with nsingle=2, removing [0] and then [1] leaves one state in the order
    although nmany says two, and the live state |11> keeps the index 2 of its first numbering. *)
Theorem remove_lin_twice_refuted :
  exists n name ops si, ix_of name n = IxLin /\ (forall k, In k (concat ops) -> k < 2 ^ n) /\
    remove_many (si_init n name) ops = Some si /\
    ~ si_ok si (not_removed (concat ops)) /\
    si_nmany si <> length (si_i si).
Proof.
  exists 2, "Lin"%string, [[0]; [1]].
  destruct (remove_many (si_init 2 "Lin") [[0]; [1]]) as [si|] eqn:E; [|vm_compute in E; discriminate].
  exists si. split; [reflexivity|]. split.
  { simpl. intros k [<-|[<-|[]]]; lia. }
  split; auto.
  assert (B : si_nmany si <> length (si_i si)).
  { vm_compute in E. injection E as <-. simpl. discriminate. }
  split; auto. intros OK. apply B. apply (ok_nmany _ _ OK).
Qed.
