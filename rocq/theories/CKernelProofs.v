(** Lemmas about the compiled kernel handler (CKernelHandler.v). *)
From Coq Require Import String List Arith Lia ZArith Bool Permutation Ring.
From Verif Require Import Base Bits Indexing IndexingProofs DMIndex DMIndexProofs CRing Layout Kernel KernelProofs CKernelHandler.
Import ListNotations.
Open Scope nat_scope.
Local Notation length := List.length.

(** ** Threads *)
Section Par.
Variables (I V : Type) (ieq : forall a b : I, {a = b} + {a <> b}) (add : V -> V -> V).
Implicit Types (u : I * V) (us : list (I * V)).
(** what the updates [us] make of cell i *)
Definition val (i : I) us (w : V) : V := fold_left (fun w u => if ieq i (fst u) then add w (snd u) else w) us w.
Lemma run_seq_val : forall us m0 i, run_seq ieq add us m0 i = val i us (m0 i).
Proof.
  induction us as [|u us IH]; intros; auto. unfold run_seq, val in *. cbn [fold_left]. rewrite IH. auto.
Qed.
Lemma val_none : forall us i w, (forall u, In u us -> fst u <> i) -> val i us w = w.
Proof.
  induction us as [|u us IH]; intros i w H; auto. unfold val in *. cbn [fold_left].
  destruct (ieq i (fst u)) as [->|]; [destruct (H u); simpl; auto|]. apply IH. intros; apply H; simpl; auto.
Qed.
Lemma val_app : forall us us' i w, val i (us ++ us') w = val i us' (val i us w).
Proof. intros. unfold val. apply fold_left_app. Qed.

Definition touches us (i : I) : Prop := exists u, In u us /\ fst u = i.
Variables (ps : list (list (I * V))) (m0 : I -> V).
Hypothesis DISJ : forall s t i, s <> t -> touches (nth s ps []) i -> touches (nth t ps []) i -> False.

Record inv (m : machine I V) : Prop := {
  in_split : forall t, exists d, nth t ps [] = d ++ rest m t /\
     (forall i, touches (nth t ps []) i -> mem m i = val i d (m0 i));
  in_free : forall i, (forall t, ~ touches (nth t ps []) i) -> mem m i = m0 i;
  in_reg : forall t w x v r, reg m t = Some w -> rest m t = (x, v) :: r -> w = mem m x
}.
Lemma inv_start : inv (start ps m0).
Proof.
  constructor; cbn; auto.
  - intros t. exists []. auto.
  - intros. discriminate.
Qed.
Lemma inv_step : forall m t, inv m -> inv (step ieq add m t).
Proof.
  intros m t H. unfold step. destruct (rest m t) as [|[x v] r] eqn:R; auto.
  assert (TX : touches (nth t ps []) x).
  { destruct (in_split m H t) as (d & E & _). rewrite E, R. exists (x, v). split; auto. apply in_or_app. simpl. auto. }
  destruct (reg m t) as [w|] eqn:G.
  - assert (w = mem m x) by (eapply (in_reg m H); eauto). subst w.
    constructor; cbn [mem rest reg].
    + intros s. destruct (in_split m H s) as (d & E & A). unfold set_at. destruct (Nat.eqb_spec s t) as [->|N].
      * exists (d ++ [(x, v)]). rewrite R in E. split; [rewrite <- app_assoc; exact E|].
        intros i Ti. rewrite val_app. unfold val at 1. cbn [fold_left fst snd]. rewrite <- (A i Ti).
        destruct (ieq i x) as [->|]; auto.
      * exists d. split; auto. intros i Ti. destruct (ieq i x) as [->|]; auto.
        exfalso. apply (DISJ s t x); auto.
    + intros i F. destruct (ieq i x) as [->|]; [exfalso; eapply F; eauto|]. apply (in_free m H); auto.
    + intros s w y v' r'. unfold set_at. destruct (Nat.eqb_spec s t) as [->|N]; [discriminate|].
      intros Gs Rs. destruct (ieq y x) as [->|]; [|eapply (in_reg m H); eauto].
      exfalso. apply (DISJ s t x); auto. destruct (in_split m H s) as (d & E & _).
      rewrite E, Rs. exists (x, v'). split; auto. apply in_or_app. simpl. auto.
  - constructor; cbn [mem rest reg].
    + apply (in_split m H).
    + apply (in_free m H).
    + intros s w y v' r'. unfold set_at. destruct (Nat.eqb_spec s t) as [->|N]; [|apply (in_reg m H)].
      intros Gs Rs. rewrite R in Rs. congruence.
Qed.
Lemma inv_run : forall sched m, inv m -> inv (run_sched ieq add sched m).
Proof. induction sched; intros; auto. apply IHsched. now apply inv_step. Qed.

Lemma val_concat : forall l i w t, (forall s s', s <> s' -> touches (nth s l []) i -> touches (nth s' l []) i -> False) ->
  touches (nth t l []) i -> val i (concat l) w = val i (nth t l []) w.
Proof.
  induction l as [|p l IH]; intros i w t D T.
  - exfalso. destruct T as (u & H & _). destruct t; destruct H.
  - cbn [concat]. rewrite val_app. destruct t as [|t]; cbn [nth] in *.
    + apply val_none. intros u Hu E. apply in_concat in Hu. destruct Hu as (q & Hq & Hu).
      destruct (In_nth _ _ [] Hq) as (s & Hs & Eq). apply (D (S s) 0); auto. cbn. rewrite Eq. exists u. auto.
    + rewrite (val_none p).
      * apply IH; auto. intros s s' N. apply (D (S s) (S s')). auto.
      * intros u Hu E. apply (D 0 (S t)); auto. exists u. auto.
Qed.

Theorem par_result : forall sched, finished (run_sched ieq add sched (start ps m0)) ->
  forall i, mem (run_sched ieq add sched (start ps m0)) i = run_seq ieq add (concat ps) m0 i.
Proof.
  intros sched F i. pose proof (inv_run sched _ inv_start) as H. set (m := run_sched ieq add sched (start ps m0)) in *.
  rewrite run_seq_val.
  destruct (existsb (fun p => existsb (fun u => if ieq (fst u) i then true else false) p) ps) eqn:X.
  - apply existsb_exists in X. destruct X as (p & Hp & X). apply existsb_exists in X. destruct X as (u & Hu & X).
    destruct (ieq (fst u) i) as [E|]; [|discriminate]. destruct (In_nth _ _ [] Hp) as (t & Ht & Et).
    assert (T : touches (nth t ps []) i) by (rewrite Et; exists u; auto).
    rewrite (val_concat ps i (m0 i) t); auto; [|intros; eapply DISJ; eauto].
    destruct (in_split m H t) as (d & E1 & A). rewrite (F t), app_nil_r in E1. rewrite E1. now apply A.
  - assert (N : forall p u, In p ps -> In u p -> fst u <> i).
    { intros p u Hp Hu E. assert (existsb (fun p => existsb (fun u => if ieq (fst u) i then true else false) p) ps = true); [|congruence].
      apply existsb_exists. exists p. split; auto. apply existsb_exists. exists u. split; auto. rewrite E. destruct (ieq i i); auto. }
    rewrite val_none.
    + apply (in_free m H). intros t (u & Hu & E). destruct (nth_in_or_default t ps []) as [Hp|D].
      * exact (N _ u Hp Hu E).
      * rewrite D in Hu. destruct Hu.
    + intros u Hu. apply in_concat in Hu. destruct Hu as (p & Hp & Hu). eauto.
Qed.
End Par.

(** whatever has happened so far, the threads can be run to the end *)
Section Progress.
Variables (I V : Type) (ieq : forall a b : I, {a = b} + {a <> b}) (add : V -> V -> V).
Lemma finish_one : forall t k (m : machine I V), length (rest m t) = k -> exists sched,
  rest (run_sched ieq add sched m) t = [] /\ forall s, s <> t -> rest (run_sched ieq add sched m) s = rest m s.
Proof.
  intros t. induction k as [|k IH]; intros m Hk.
  - exists []. cbn. split; auto. now apply length_zero_iff_nil.
  - assert (X : exists sch, length (rest (run_sched ieq add sch m) t) = k /\ forall s, s <> t -> rest (run_sched ieq add sch m) s = rest m s).
    { destruct (rest m t) as [|[x v] r] eqn:R; [discriminate|]. cbn in Hk. destruct (reg m t) as [w|] eqn:G.
      - exists [t]. cbn. unfold step. rewrite R, G. cbn. unfold set_at. rewrite Nat.eqb_refl. split; [lia|].
        intros s N. apply Nat.eqb_neq in N. now rewrite N.
      - exists [t; t]. cbn. unfold step at 2 4. rewrite R, G. unfold step. cbn. unfold set_at. rewrite R, !Nat.eqb_refl. cbn. rewrite Nat.eqb_refl. split; [lia|].
        intros s N. apply Nat.eqb_neq in N. now rewrite N. }
    destruct X as (sch & L0 & O0). destruct (IH _ L0) as (sch' & A & B). exists (sch ++ sch'). unfold run_sched in *. rewrite fold_left_app. split; auto.
    intros s N. rewrite B, O0; auto.
Qed.
Theorem can_finish : forall N (m : machine I V), (forall t, N <= t -> rest m t = []) -> exists sched, finished (run_sched ieq add sched m).
Proof.
  induction N as [|N IH]; intros m H.
  - exists []. intros t. apply H. lia.
  - destruct (finish_one N _ m eq_refl) as (sch & A & B). destruct (IH (run_sched ieq add sch m)) as (sch' & F).
    + intros t Ht. destruct (Nat.eq_dec t N) as [->|Ne]; auto. rewrite B by auto. apply H. lia.
    + exists (sch ++ sch'). unfold run_sched in *. now rewrite fold_left_app.
Qed.
Lemma rest_done : forall sched (m : machine I V) t, rest m t = [] -> rest (run_sched ieq add sched m) t = [].
Proof.
  induction sched as [|s sched IH]; intros m t H; auto. cbn. apply IH. unfold step. destruct (rest m s) as [|[x v] r] eqn:R; auto.
  destruct (reg m s); auto. cbn. unfold set_at. destruct (Nat.eqb_spec t s) as [->|]; auto. congruence.
Qed.
Theorem can_finish_later : forall ps (m0 : I -> V) sched, exists sched', finished (run_sched ieq add (sched ++ sched') (start ps m0)).
Proof.
  intros ps m0 sched. destruct (can_finish (length ps) (run_sched ieq add sched (start ps m0))) as (sch & F).
  - intros t Ht. apply rest_done. cbn. now apply nth_overflow.
  - exists sch. unfold run_sched in *. now rewrite fold_left_app.
Qed.
End Progress.

(** ** The arrays *)
Lemma states_nth : forall L c, (0 <= c)%Z -> states L c = nth (Z.to_nat c) (ly_statesdm L) [].
Proof.
  intros L c Hc. destruct (zc c Hc) as (k & ->). unfold states. rewrite py_nth_nat, Nat2Z.id.
  destruct (nth_error _ k) eqn:E.
  - symmetry. now apply nth_error_nth.
  - symmetry. apply nth_overflow. now apply nth_error_None.
Qed.
Lemma map_nth_seq : forall A (l : list A) d m, m = length l -> map (fun i => nth i l d) (seq 0 m) = l.
Proof.
  intros A l d m ->. induction l as [|x l IH]; auto. cbn [length seq map nth]. f_equal. rewrite <- seq_shift, map_map. exact IH.
Qed.
Lemma c_count_at : forall L c, nth c (c_count L) 0 = length (nth c (ly_statesdm L) []).
Proof. intros. unfold c_count. change 0 with (length (@nil nat)) at 1. apply map_nth. Qed.
Lemma fold_max_ge : forall l a, (a <= fold_left Nat.max l a)%nat /\ forall x, In x l -> (x <= fold_left Nat.max l a)%nat.
Proof.
  induction l as [|y l IH]; intros a; cbn [fold_left]; [split; [lia|easy]|]. destruct (IH (Nat.max a y)) as [A B].
  split; [lia|]. intros x [<-|Hx]; [lia|auto].
Qed.
Lemma max_states_le : forall L l, In l (ly_statesdm L) -> (length l <= max_states L)%nat.
Proof. intros L l H. apply fold_max_ge. now apply in_map. Qed.
Lemma c_states_nth : forall L c, (0 <= c <= Z.of_nat (ly_ncharge L))%Z -> c_states L c = nth (Z.to_nat c) (ly_statesdm L) [].
Proof.
  intros L c Hc. unfold c_states. destruct (Z.ltb_spec c 0); [lia|]. destruct (Z.ltb_spec (Z.of_nat (ly_ncharge L)) c); [lia|].
  rewrite c_count_at. set (l := nth (Z.to_nat c) (ly_statesdm L) []).
  transitivity (map (fun i => nth i l 0) (seq 0 (length l))); [|now apply map_nth_seq].
  apply map_ext_in. intros i Hi. apply in_seq in Hi. unfold c_statesdm.
  destruct (Nat.lt_ge_cases (Z.to_nat c) (length (ly_statesdm L))) as [H1|H1].
  - rewrite nth_indep with (d' := (fun l => firstn (max_states L) (l ++ repeat 0 (max_states L))) []) by now rewrite map_length.
    rewrite (map_nth (fun l => firstn (max_states L) (l ++ repeat 0 (max_states L)))).
    assert (W : (length l <= max_states L)%nat) by (apply max_states_le; unfold l; now apply nth_In).
    rewrite firstn_app, app_nth1 by (rewrite firstn_length; unfold l in Hi; fold l in Hi |- *; lia).
    rewrite firstn_all2 by exact W. reflexivity.
  - unfold l in Hi. rewrite nth_overflow in Hi by auto. simpl in Hi. lia.
Qed.
Lemma c_states_eq : forall L c, states L (-1) = [] -> (-1 <= c <= Z.of_nat (ly_ncharge L))%Z -> c_states L c = states L c.
Proof.
  intros L c LB Hc. destruct (Z.eq_dec c (-1)) as [->|].
  - rewrite LB. reflexivity.
  - rewrite c_states_nth, states_nth by lia. auto.
Qed.
Lemma c_state_at : forall L c i, i < length (nth c (ly_statesdm L) []) ->
  c_state L c i = Some (nth i (nth c (ly_statesdm L) []) 0).
Proof.
  intros L c i Hi. unfold c_state, c_statesdm. rewrite nth_error_map.
  destruct (nth_error (ly_statesdm L) c) as [l|] eqn:E.
  - cbn. rewrite (nth_error_nth _ _ [] E) in *. 
    assert (W : (length l <= max_states L)%nat) by (apply max_states_le; eapply nth_error_In; eauto).
    rewrite firstn_app, firstn_all2 by exact W. rewrite nth_error_app1 by auto. now apply nth_error_nth'.
  - apply nth_error_None in E. rewrite nth_overflow in Hi by auto. simpl in Hi. lia.
Qed.

Lemma oflat_some : forall A B (f : A -> option (list B)) g l, (forall x, In x l -> f x = Some (g x)) ->
  oflat f l = Some (flat_map g l).
Proof.
  induction l as [|x l IH]; intros H; auto. cbn. rewrite H by (simpl; auto). rewrite IH by (intros; apply H; simpl; auto). auto.
Qed.
Lemma write_rows_ok : forall rs ind mem, ind + length rs <= length mem ->
  write_rows rs ind mem = Some (firstn ind mem ++ rs ++ skipn (ind + length rs) mem).
Proof.
  induction rs as [|r rs IH]; intros ind mem H; cbn [write_rows].
  - cbn [length app]. rewrite Nat.add_0_r. now rewrite firstn_skipn.
  - cbn [length] in H. destruct (Nat.ltb_spec ind (length mem)); [|lia].
    rewrite IH by (rewrite set_nth_length; lia). f_equal.
    assert (E : forall k (m : list row) x, k < length m -> firstn (S k) (set_nth k x m) = firstn k m ++ [x] /\
              forall j, k < j -> skipn j (set_nth k x m) = skipn j m).
    { induction k; intros m x Hk; destruct m as [|y m]; cbn [length] in Hk; try lia.
      - split; auto. intros j Hj. destruct j; [lia|]. reflexivity.
      - destruct (IHk m x ltac:(lia)) as (A & B). split.
        + change (set_nth (S k) x (y :: m)) with (y :: set_nth k x m).
          change (firstn (S (S k)) (y :: set_nth k x m)) with (y :: firstn (S k) (set_nth k x m)). rewrite A. reflexivity.
        + intros j Hj. destruct j; [lia|]. change (set_nth (S k) x (y :: m)) with (y :: set_nth k x m). cbn [skipn]. apply B. lia. }
    destruct (E ind mem r ltac:(lia)) as (A & B). rewrite A, B by lia. rewrite <- app_assoc. cbn [length app].
    replace (S ind + length rs) with (ind + S (length rs)) by lia. reflexivity.
Qed.
Lemma write_rows_full : forall rs n, length rs = n -> write_rows rs 0 (repeat (0, 0, 0) n) = Some rs.
Proof.
  intros rs n <-. rewrite write_rows_ok by (rewrite repeat_length; lia). cbn [firstn app].
  rewrite skipn_all2 by (rewrite repeat_length; lia). now rewrite app_nil_r.
Qed.
Lemma write_rows_over : forall rs ind mem, ind <= length mem -> length mem < ind + length rs -> write_rows rs ind mem = None.
Proof.
  induction rs as [|r rs IH]; intros ind mem H1 H2; cbn [write_rows length] in *; [lia|].
  destruct (Nat.ltb_spec ind (length mem)); auto. apply IH; rewrite set_nth_length; lia.
Qed.

(** loops over positions as loops over the states *)
Lemma map_skipn : forall (l : list nat) lo, map (fun j => nth j l 0) (seq lo (length l - lo)) = skipn lo l.
Proof.
  induction l as [|x l IH]; intros lo.
  - cbn. destruct lo; auto.
  - destruct lo as [|lo].
    + cbn [skipn]. now apply map_nth_seq.
    + cbn [length skipn]. replace (S (length l) - S lo) with (length l - lo) by lia.
      rewrite <- seq_shift, map_map. apply IH.
Qed.
Lemma positions_wr : forall l, flat_map (fun i => map (fun j => (nth i l 0, nth j l 0)) (seq i (length l - i))) (seq 0 (length l))
  = combinations_wr l.
Proof.
  intros l.
  assert (H : forall l, flat_map (fun i => map (pair (nth i l 0)) (skipn i l)) (seq 0 (length l)) = combinations_wr l).
  { clear l. induction l as [|x l IH]; auto. cbn [length seq flat_map nth skipn combinations_wr]. f_equal.
    rewrite <- IH, <- seq_shift. rewrite flat_map_concat_map, map_map, <- flat_map_concat_map. reflexivity. }
  rewrite <- H. apply flat_map_ext. intros i. rewrite <- map_skipn, map_map. reflexivity.
Qed.
Lemma positions_prod : forall l, flat_map (fun i => map (fun j => (nth i l 0, nth j l 0)) (seq 0 (length l - 0))) (seq 0 (length l))
  = list_prod l l.
Proof.
  intros l. assert (H : forall k, flat_map (fun i => map (pair (nth i k 0)) l) (seq 0 (length k)) = list_prod k l).
  { induction k as [|x k IH]; auto. cbn [length seq flat_map nth list_prod]. f_equal.
    rewrite <- IH, <- seq_shift. rewrite flat_map_concat_map, map_map, <- flat_map_concat_map. reflexivity. }
  rewrite <- H. apply flat_map_ext. intros i.
  transitivity (map (pair (nth i l 0)) (map (fun j => nth j l 0) (seq 0 (length l)))).
  - now rewrite map_map, Nat.sub_0_r.
  - now rewrite map_nth_seq.
Qed.
Lemma flat_map_map : forall A B C (f : A -> B) (g : B -> list C) l, flat_map g (map f l) = flat_map (fun x => g (f x)) l.
Proof. intros. rewrite !flat_map_concat_map, map_map. reflexivity. Qed.
Lemma flat_map_flat : forall A B C (f : A -> list B) (g : B -> list C) l, flat_map g (flat_map f l) = flat_map (fun x => flat_map g (f x)) l.
Proof. induction l; cbn; auto. now rewrite flat_map_app, IHl. Qed.
Lemma positions_diag : forall (l : list nat) lo, (forall i, lo i <= i) ->
  flat_map (fun i => flat_map (fun j => if negb (i =? j) then [] else [(nth i l 0, nth j l 0)]) (seq (lo i) (length l - lo i))) (seq 0 (length l))
  = map (fun b => (b, b)) l.
Proof.
  intros l lo H. transitivity (flat_map (fun i => [(nth i l 0, nth i l 0)]) (seq 0 (length l))).
  - assert (E : forall i n s, s <= i < s + n ->
       flat_map (fun j => if negb (i =? j) then [] else [(nth i l 0, nth j l 0)]) (seq s n) = [(nth i l 0, nth i l 0)]).
    { intros i. induction n as [|n IH]; intros s Hs; [lia|]. cbn [seq flat_map]. destruct (Nat.eqb_spec i s) as [->|N]; cbn [negb app].
      - f_equal. assert (Z : forall k q, s < q -> flat_map (fun j => if negb (s =? j) then [] else [(nth s l 0, nth j l 0)]) (seq q k) = []).
        { induction k; intros q Hq; auto. cbn [seq flat_map]. destruct (Nat.eqb_spec s q); [lia|]. cbn. apply IHk. lia. }
        apply Z. lia.
      - apply IH. lia. }
    rewrite !flat_map_concat_map. f_equal. apply map_ext_in. intros i Hi. apply in_seq in Hi. apply E. specialize (H i). lia.
  - transitivity (map (fun b => (b, b)) (map (fun j => nth j l 0) (seq 0 (length l)))); [|now rewrite map_nth_seq].
    rewrite map_map. induction (seq 0 (length l)) as [|a r IH]; cbn; auto.
Qed.

(** the pairs visited for one charge *)
Definition pairs_of (no_coh no_conj : bool) (l : list nat) : list (nat * nat) :=
  if no_coh then map (fun b => (b, b)) l else if no_conj then combinations_wr l else list_prod l l.
Definition unique_rows (no_coh no_conj : bool) (L : Lay) : list row :=
  flat_map (fun c => flat_map (fun p => if uniq L (fst p) (snd p) (Z.of_nat c) then [(fst p, snd p, c)] else [])
    (pairs_of no_coh no_conj (nth c (ly_statesdm L) []))) (seq 0 (ly_ncharge L)).

Section Rows.
Variable L : Lay.
Hypothesis READ : forall b bp c, c < ly_ncharge L -> In b (nth c (ly_statesdm L) []) -> In bp (nth c (ly_statesdm L) []) ->
  slot_at L b bp (Z.of_nat c) < length (ly_booldm0 L).
Theorem bbp_rows_eq : forall no_coh no_conj, bbp_rows no_coh no_conj L = Some (unique_rows no_coh no_conj L).
Proof.
  intros no_coh no_conj. unfold bbp_rows, unique_rows.
  set (lo := fun i : nat => if no_conj then i else 0).
  set (u := fun (c : nat) (p : nat * nat) => if uniq L (fst p) (snd p) (Z.of_nat c) then [(fst p, snd p, c)] else []).
  rewrite oflat_some with (g := fun c => let l := nth c (ly_statesdm L) [] in
     flat_map (fun i => flat_map (fun j => if (no_coh && negb (i =? j))%bool then [] else u c (nth i l 0, nth j l 0))
        (seq (lo i) (length l - lo i))) (seq 0 (length l))).
  - f_equal. rewrite !flat_map_concat_map. f_equal. apply map_ext. intros c. cbv zeta. set (l := nth c (ly_statesdm L) []).
    transitivity (flat_map (u c) (flat_map (fun i => flat_map (fun j => if (no_coh && negb (i =? j))%bool then [] else [(nth i l 0, nth j l 0)])
        (seq (lo i) (length l - lo i))) (seq 0 (length l)))).
    + rewrite flat_map_flat. apply flat_map_ext. intros i. rewrite flat_map_flat. apply flat_map_ext. intros j.
      destruct (no_coh && negb (i =? j))%bool; cbn [flat_map]; auto. now rewrite app_nil_r.
    + f_equal. unfold pairs_of. destruct no_coh; cbn [andb].
      * apply positions_diag. intros i. unfold lo. destruct no_conj; lia.
      * unfold lo. destruct no_conj; [rewrite <- positions_wr|rewrite <- positions_prod]; apply flat_map_ext; intros i;
          rewrite flat_map_concat_map, map_map || idtac;
          match goal with |- _ = map ?f ?s => induction s as [|a r IH]; cbn; auto; now rewrite <- IH end.
  - intros c Hc. apply in_seq in Hc. cbv zeta. rewrite c_count_at. set (l := nth c (ly_statesdm L) []).
    apply oflat_some. intros i Hi. apply in_seq in Hi. apply oflat_some. intros j Hj. apply in_seq in Hj.
    unfold bbp_at. destruct (no_coh && negb (i =? j))%bool; auto.
    assert (Hj' : j < length l) by lia.
    rewrite !c_state_at by (fold l; lia). fold l.
    rewrite nth_error_nth' with (d := false).
    + unfold u, uniq. cbn [fst snd]. auto.
    + apply READ; [lia| |]; apply nth_In; fold l; lia.
Qed.
Lemma set_all_bbp_full : forall no_coh no_conj, length (unique_rows no_coh no_conj L) = nelements no_coh L ->
  set_all_bbp no_coh no_conj L = Some (unique_rows no_coh no_conj L).
Proof. intros. unfold set_all_bbp. rewrite bbp_rows_eq. now apply write_rows_full. Qed.
Lemma set_all_bbp_over : forall no_coh no_conj, nelements no_coh L < length (unique_rows no_coh no_conj L) ->
  set_all_bbp no_coh no_conj L = None.
Proof. intros. unfold set_all_bbp. rewrite bbp_rows_eq. apply write_rows_over; rewrite repeat_length; lia. Qed.
End Rows.
