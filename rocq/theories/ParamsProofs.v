(** Proofs about parameter dictionaries: the four matrix builders are additive in the values of the dictionary. *)
From Coq Require Import String List Arith Lia Bool ZArith Ring.
From Verif Require Import Base Bits Indexing CRing Operators Params.
Import ListNotations.
Open Scope nat_scope.
Local Notation length := List.length.

(** ** dictionaries *)
Section Dict.
Context {Key V : Type}.
Variable keq : forall a b : Key, {a = b} + {a <> b}.
Local Notation dget := (@dget Key V keq).
Local Notation dset := (@dset Key V keq).
Lemma dget_set : forall d k v k', dget (dset d k v) k' = if keq k' k then Some v else dget d k'.
Proof.
  induction d as [|[k0 w] d IH]; simpl; intros k v k'; [destruct (keq k' k); auto|].
  destruct (keq k k0) as [->|N]; simpl.
  - now destruct (keq k' k0).
  - rewrite IH. destruct (keq k' k0), (keq k' k); congruence.
Qed.
Lemma dget_in : forall d k v, dget d k = Some v -> In (k, v) d.
Proof.
  induction d as [|[k0 w] d IH]; simpl; intros k v; [discriminate|].
  destruct (keq k k0) as [->|N]; intros H; auto. left. congruence.
Qed.
Lemma dget_none : forall d k, dget d k = None <-> ~ In k (map fst d).
Proof.
  induction d as [|[k0 w] d IH]; simpl; intros k; [tauto|].
  destruct (keq k k0) as [->|N].
  - split; [discriminate|]. intros H. exfalso. apply H. auto.
  - rewrite IH. split; [intros H [E|X]; [congruence|tauto]|tauto].
Qed.
Lemma dset_fst_new : forall d k v, dget d k = None -> dset d k v = d ++ [(k, v)].
Proof.
  induction d as [|[k0 w] d IH]; simpl; intros k v; auto.
  destruct (keq k k0); [discriminate|]. intros H. now rewrite IH.
Qed.
Lemma dset_keys : forall d k v, map fst (dset d k v) = if in_dec keq k (map fst d) then map fst d else map fst d ++ [k].
Proof.
  induction d as [|[k0 w] d IH]; simpl; intros k v; auto.
  destruct (keq k k0) as [->|N]; simpl.
  - destruct (keq k0 k0); congruence.
  - rewrite IH. destruct (keq k0 k); [congruence|]. destruct (in_dec keq k (map fst d)); auto.
Qed.
Lemma dset_nodup : forall d k v, NoDup (map fst d) -> NoDup (map fst (dset d k v)).
Proof.
  intros d k v H. rewrite dset_keys. destruct (in_dec keq k (map fst d)) as [I|I]; auto.
  apply NoDup_app_intro; auto; [repeat constructor; auto|]. intros x Hx [<-|[]]; auto.
Qed.
Lemma dset_in_keys : forall d k v x, In x (map fst (dset d k v)) <-> x = k \/ In x (map fst d).
Proof.
  intros d k v x. rewrite dset_keys. destruct (in_dec keq k (map fst d)) as [I|I].
  - split; [tauto|]. intros [->|]; auto.
  - rewrite in_app_iff. simpl. split; [intros [|[|[]]]; auto|intros [->|]; auto].
Qed.
Lemma dupdate_nodup : forall (l d : dict Key V), NoDup (map fst d) -> NoDup (map fst (dupdate keq d l)).
Proof. induction l as [|e l IH]; simpl; intros d H; auto. apply IH. now apply dset_nodup. Qed.
(** the last row for a key counts *)
Definition last_of (l : list (Key * V)) (k : Key) : option V := dget (rev l) k.
Lemma dget_app : forall d d' k, dget (d ++ d') k = match dget d k with Some v => Some v | None => dget d' k end.
Proof. induction d as [|[k0 w] d IH]; simpl; intros d' k; auto. destruct (keq k k0); auto. Qed.
Lemma dupdate_get : forall (l d : dict Key V) k, dget (dupdate keq d l) k = match last_of l k with Some v => Some v | None => dget d k end.
Proof.
  induction l as [|[k0 w] l IH]; intros d k; auto. unfold last_of in *. simpl. rewrite IH, dget_app, dget_set. simpl.
  destruct (dget (rev l) k); auto. destruct (keq k k0); auto.
Qed.
Lemma dget_nodup : forall d k v, NoDup (map fst d) -> (dget d k = Some v <-> In (k, v) d).
Proof.
  intros d k v ND. split; [apply dget_in|]. induction d as [|[k0 w] d IH]; simpl; [tauto|].
  inversion ND as [|x xs H1 H2]; subst. intros [E|H].
  - injection E as -> ->. destruct (keq k k); congruence.
  - destruct (keq k k0) as [->|]; auto. exfalso. apply H1. apply in_map_iff. exists (k0, v). auto.
Qed.
Lemma last_of_nodup : forall d k, NoDup (map fst d) -> last_of d k = dget d k.
Proof.
  intros d k ND. unfold last_of. assert (ND' : NoDup (map fst (rev d))). { rewrite map_rev. now apply NoDup_rev. }
  destruct (dget d k) as [v|] eqn:E.
  - apply dget_nodup; auto. apply in_rev. rewrite rev_involutive. now apply dget_in.
  - apply dget_none. apply dget_none in E. rewrite map_rev, <- in_rev. auto.
Qed.
End Dict.

(** ** Sums over a dictionary *)
Section Sums.
Variable K : CRing.
Notation C := (Cx K).
Add Ring Cpar : (rth C).
Local Open Scope rng_scope.
Variable isz : C -> bool.
Hypothesis isz_spec : forall x, isz x = true <-> x = 0.
Context {Key : Type}.
Variable keq : forall a b : Key, {a = b} + {a <> b}.
Local Notation dget := (@dget Key C keq).
Local Notation dset := (@dset Key C keq).
(** the value of a key, 0 when the key is absent *)
Definition val (d : dict Key C) (k : Key) : C := match dget d k with Some v => v | None => 0 end.

(** [D k v]: what one item contributes *)
Variable D : Key -> C -> C.
Hypothesis D_add : forall k v w, D k (v + w) = D k v + D k w.
Definition total (d : dict Key C) : C := rsum (fun e => D (fst e) (snd e)) d.
Lemma total_new : forall d k v, dget d k = None -> total (dset d k v) = total d + D k v.
Proof. intros d k v H. rewrite (dset_fst_new keq) by auto. unfold total. rewrite rsum_app. cbn [rsum fst snd]. ring. Qed.
Lemma total_old : forall d k v w, dget d k = Some v -> total (dset d k (v + w)) = total d + D k w.
Proof.
  induction d as [|[k0 u] d IH]; intros k v w; [discriminate|]. cbn [Params.dget Params.dset].
  destruct (keq k k0) as [->|N]; intros H.
  - injection H as ->. unfold total. cbn [rsum fst snd]. rewrite D_add. ring.
  - specialize (IH k v w H). unfold total in *. cbn [rsum fst snd]. rewrite IH. ring.
Qed.
Lemma dadd_total : forall new self, total (dadd K keq self new) = total self + total new.
Proof.
  induction new as [|[k w] new IH]; intros self.
  - unfold dadd, total. cbn [fold_left rsum]. ring.
  - unfold dadd. cbn [fold_left fst snd]. change (total (dadd K keq (match dget self k with Some v => dset self k (v + w) | None => dset self k w end) new) =
      total self + total ((k, w) :: new)). rewrite IH. unfold total at 4. cbn [rsum fst snd]. fold (total new).
    destruct (dget self k) as [v|] eqn:E; [rewrite (total_old _ _ _ _ E)|rewrite (total_new _ _ _ E)]; ring.
Qed.
(** change: the dictionary moves by exactly the differences *)
Lemma dchange_total : forall new self, NoDup (map fst new) ->
  total (fst (dchange K isz keq true self new)) = total self + total (snd (dchange K isz keq true self new)).
Proof.
  intros new self ND. unfold dchange.
  assert (G : forall new self diff, NoDup (map fst new) -> (forall k, In k (map fst new) -> dget diff k = None) ->
    let r := fold_left (fun st e => let '(self, diff) := st in
     match dget self (fst e) with
     | Some v => let df := snd e - v in
         if isz df then st else (if true then dset self (fst e) (v + df) else self, dset diff (fst e) df)
     | None => let df := snd e in
         if isz df then st else (if true then dset self (fst e) df else self, dset diff (fst e) df)
     end) new (self, diff) in total (fst r) + total diff = total self + total (snd r)).
  { clear new self ND. induction new as [|[k w] new IH]; intros self diff ND Hd; [cbn [fold_left fst snd]; ring|].
    cbn [map fst] in ND. inversion ND as [|x xs N1 N2]; subst. cbn [fold_left fst snd].
    assert (Hd2 : forall k', In k' (map fst new) -> dget diff k' = None) by (intros; apply Hd; now right).
    destruct (dget self k) as [v|] eqn:E; [destruct (isz (w - v))|destruct (isz w)]; try (apply IH; assumption).
    - specialize (IH (dset self k (v + (w - v))) (dset diff k (w - v)) N2). cbv zeta in IH.
      rewrite (total_old _ _ _ _ E) in IH. rewrite total_new in IH by (apply Hd; now left).
      assert (X : forall a b c d e : C, a + (b + e) = c + e + d -> a + b = c + d) by (intros a b c d e H1; transitivity (a + (b + e) - e); [ring|rewrite H1; ring]).
      eapply X. apply IH. intros k' Hk. rewrite dget_set. destruct (keq k' k) as [->|]; [contradiction|auto].
    - specialize (IH (dset self k w) (dset diff k w) N2). cbv zeta in IH.
      rewrite (total_new _ _ _ E) in IH. rewrite total_new in IH by (apply Hd; now left).
      assert (X : forall a b c d e : C, a + (b + e) = c + e + d -> a + b = c + d) by (intros a b c d e H1; transitivity (a + (b + e) - e); [ring|rewrite H1; ring]).
      eapply X. apply IH. intros k' Hk. rewrite dget_set. destruct (keq k' k) as [->|]; [contradiction|auto]. }
  specialize (G new self [] ND (fun _ _ => eq_refl)). cbv zeta in G. unfold total at 2 in G. cbn [rsum] in G.
  assert (X : forall a b : C, a + 0 = b -> a = b) by (intros a b <-; ring). apply X. exact G.
Qed.

(** what add and change do to each key *)
Lemma dadd_val : forall new self k, NoDup (map fst new) -> val (dadd K keq self new) k = val self k + val new k.
Proof.
  induction new as [|[k0 w] new IH]; intros self k ND.
  - unfold dadd, val. cbn. ring.
  - cbn [map fst] in ND. inversion ND as [|x xs N1 N2]; subst. unfold dadd. cbn [fold_left fst snd].
    change (val (dadd K keq (match dget self k0 with Some v => dset self k0 (v + w) | None => dset self k0 w end) new) k =
      val self k + val ((k0, w) :: new) k). rewrite IH by auto.
    unfold val. cbn [Params.dget]. destruct (keq k k0) as [->|N].
    + replace (dget new k0) with (@None C) by (symmetry; now apply dget_none).
      destruct (dget self k0) as [v|]; rewrite dget_set; destruct (keq k0 k0); try congruence; ring.
    + destruct (dget self k0) as [v|]; rewrite dget_set; destruct (keq k k0); try congruence; ring.
Qed.
Lemma dadd_keys : forall new self k, In k (map fst (dadd K keq self new)) <-> In k (map fst self) \/ In k (map fst new).
Proof.
  induction new as [|[k0 w] new IH]; intros self k; [cbn; tauto|].
  unfold dadd. cbn [fold_left fst snd].
  change (In k (map fst (dadd K keq (match dget self k0 with Some v => dset self k0 (v + w) | None => dset self k0 w end) new)) <->
    In k (map fst self) \/ In k (k0 :: map fst new)). rewrite IH. cbn [In].
  destruct (dget self k0); rewrite dset_in_keys; split; intuition congruence.
Qed.
Lemma dadd_nodup : forall new self, NoDup (map fst self) -> NoDup (map fst (dadd K keq self new)).
Proof.
  induction new as [|[k0 w] new IH]; intros self H; auto. unfold dadd. cbn [fold_left fst snd].
  change (NoDup (map fst (dadd K keq (match dget self k0 with Some v => dset self k0 (v + w) | None => dset self k0 w end) new))).
  apply IH. destruct (dget self k0); now apply dset_nodup.
Qed.
Definition change_step (st : dict Key C * dict Key C) (e : Key * C) : dict Key C * dict Key C :=
  let '(self, diff) := st in
     match dget self (fst e) with
     | Some v => let df := snd e - v in
         if isz df then st else (if true then dset self (fst e) (v + df) else self, dset diff (fst e) df)
     | None => let df := snd e in
         if isz df then st else (if true then dset self (fst e) df else self, dset diff (fst e) df)
     end.
Lemma dchange_fold : forall self new, dchange K isz keq true self new = fold_left change_step new (self, []).
Proof. reflexivity. Qed.
Lemma change_step_val : forall self diff k0 w k, val (fst (change_step (self, diff) (k0, w))) k = if keq k k0 then w else val self k.
Proof.
  intros self diff k0 w k. unfold change_step. cbn [fst snd]. unfold val.
  destruct (dget self k0) as [v|] eqn:E; [destruct (isz (w - v)) eqn:Z|destruct (isz w) eqn:Z]; cbn [fst]; try rewrite dget_set;
    destruct (keq k k0) as [->|]; auto.
  - rewrite E. apply isz_spec in Z. transitivity (w - (w - v)); [ring|]. rewrite Z. ring.
  - ring.
  - rewrite E. symmetry. now apply isz_spec.
Qed.
Lemma change_step_keys : forall self diff k0 w k, In k (map fst self) -> In k (map fst (fst (change_step (self, diff) (k0, w)))).
Proof.
  intros self diff k0 w k H. unfold change_step. cbn [fst snd].
  destruct (dget self k0) as [v|]; [destruct (isz (w - v))|destruct (isz w)]; cbn [fst]; auto; apply dset_in_keys; auto.
Qed.
(** change sets the named keys and leaves the others alone *)
Lemma dchange_val : forall new self k, NoDup (map fst new) ->
  val (fst (dchange K isz keq true self new)) k = match dget new k with Some w => w | None => val self k end.
Proof.
  intros new self k ND. rewrite dchange_fold. generalize (@nil (Key * C)) as diff. revert self ND.
  induction new as [|[k0 w] new IH]; intros self ND diff; auto.
  cbn [map fst] in ND. inversion ND as [|x xs N1 N2]; subst. cbn [fold_left].
  pose proof (change_step_val self diff k0 w k) as V. destruct (change_step (self, diff) (k0, w)) as [s d]. cbn [fst] in V.
  rewrite IH by auto. cbn [Params.dget]. rewrite V. destruct (keq k k0) as [->|]; auto.
  replace (dget new k0) with (@None C) by (symmetry; now apply dget_none). auto.
Qed.
Lemma dchange_nodup : forall new self, NoDup (map fst self) -> NoDup (map fst (fst (dchange K isz keq true self new))).
Proof.
  intros new self. rewrite dchange_fold. generalize (@nil (Key * C)) as diff. revert self.
  induction new as [|[k0 w] new IH]; intros self diff ND; auto. cbn [fold_left].
  assert (X : NoDup (map fst (fst (change_step (self, diff) (k0, w))))).
  { unfold change_step. cbn [fst snd]. destruct (dget self k0) as [v|]; [destruct (isz (w - v))|destruct (isz w)]; cbn [fst]; auto; now apply dset_nodup. }
  destruct (change_step (self, diff) (k0, w)) as [s d]. cbn [fst] in X. now apply IH.
Qed.
Lemma dchange_keys : forall new self k, In k (map fst (fst (dchange K isz keq true self new))) -> In k (map fst self) \/ In k (map fst new).
Proof.
  intros new self k. rewrite dchange_fold. generalize (@nil (Key * C)) as diff. revert self.
  induction new as [|[k0 w] new IH]; intros self diff; [cbn; auto|]. cbn [fold_left map fst In].
  assert (X : In k (map fst (fst (change_step (self, diff) (k0, w)))) -> In k (map fst self) \/ k = k0).
  { unfold change_step. cbn [fst snd]. destruct (dget self k0) as [v|]; [destruct (isz (w - v))|destruct (isz w)]; cbn [fst]; auto;
      rewrite dset_in_keys; tauto. }
  destruct (change_step (self, diff) (k0, w)) as [s d]. cbn [fst] in X. intros H. apply IH in H. intuition.
Qed.
Lemma dchange_diff_keys : forall new self k, In k (map fst (snd (dchange K isz keq true self new))) -> In k (map fst new).
Proof.
  intros new self k. rewrite dchange_fold.
  assert (G : forall new self diff, In k (map fst (snd (fold_left change_step new (self, diff)))) -> In k (map fst new) \/ In k (map fst diff)).
  { clear new self. induction new as [|[k0 w] new IH]; intros self diff; [cbn; auto|]. cbn [fold_left map fst In].
    assert (X : In k (map fst (snd (change_step (self, diff) (k0, w)))) -> In k (map fst diff) \/ k = k0).
    { unfold change_step. cbn [fst snd]. destruct (dget self k0) as [v|]; [destruct (isz (w - v))|destruct (isz w)]; cbn [snd]; auto;
        rewrite dset_in_keys; tauto. }
    destruct (change_step (self, diff) (k0, w)) as [s d]. cbn [snd] in X. intros H. apply IH in H. intuition. }
  intros H. apply G in H. destruct H as [H|[]]; auto.
Qed.
(** a new key comes with a difference *)
Lemma dchange_kept : forall new self k, In k (map fst (fst (dchange K isz keq true self new))) ->
  In k (map fst self) \/ In k (map fst (snd (dchange K isz keq true self new))).
Proof.
  intros new self k. rewrite dchange_fold.
  assert (G : forall new self diff, In k (map fst (fst (fold_left change_step new (self, diff)))) ->
    In k (map fst self) \/ In k (map fst (snd (fold_left change_step new (self, diff))))).
  { clear new self. intros new self diff. revert self diff.
    assert (M : forall new self diff, In k (map fst diff) -> In k (map fst (snd (fold_left change_step new (self, diff))))).
    { clear new. induction new as [|[k0 w] new IH]; intros self diff H; auto. cbn [fold_left].
      assert (X : In k (map fst (snd (change_step (self, diff) (k0, w))))).
      { unfold change_step. cbn [fst snd]. destruct (dget self k0) as [v|]; [destruct (isz (w - v))|destruct (isz w)]; cbn [snd]; auto;
          rewrite dset_in_keys; auto. }
      destruct (change_step (self, diff) (k0, w)) as [s d]. cbn [snd] in X. now apply IH. }
    induction new as [|[k0 w] new IH]; intros self diff; [cbn; auto|]. cbn [fold_left].
    assert (X : In k (map fst (fst (change_step (self, diff) (k0, w)))) -> In k (map fst self) \/ In k (map fst (snd (change_step (self, diff) (k0, w))))).
    { unfold change_step. cbn [fst snd]. destruct (dget self k0) as [v|]; [destruct (isz (w - v))|destruct (isz w)]; cbn [fst snd]; auto;
        rewrite !dset_in_keys; tauto. }
    destruct (change_step (self, diff) (k0, w)) as [s d]. cbn [fst snd] in X. intros H. apply IH in H. destruct H as [H|H]; auto.
    apply X in H. destruct H as [H|H]; auto. }
  intros H. now apply G in H.
Qed.
(** repeating a change: no differences *)
Lemma dchange_nothing : forall new self, (forall k w, In (k, w) new -> val self k = w) ->
  dchange K isz keq true self new = (self, []).
Proof.
  intros new self. rewrite dchange_fold. generalize (@nil (Key * C)) as diff.
  induction new as [|[k0 w] new IH]; intros diff H; auto. cbn [fold_left].
  assert (X : change_step (self, diff) (k0, w) = (self, diff)).
  { specialize (H k0 w (or_introl eq_refl)). unfold change_step, val in *. cbn [fst snd]. destruct (dget self k0) as [v|] eqn:E.
    - assert (Z : isz (w - v) = true) by (apply isz_spec; subst; ring). now rewrite Z.
    - assert (Z : isz w = true) by (now apply isz_spec). now rewrite Z. }
  rewrite X. apply IH. intros k w' Hin. apply H. now right.
Qed.
End Sums.

(** ** Matrix builders *)
Section Builders.
Variable K : CRing.
Notation C := (Cx K).
Add Ring Cbld : (rth C).
Local Open Scope rng_scope.
Context {Key I J St : Type}.
Variable ieq : forall a b : I, {a = b} + {a <> b}.
Variables (pre : J -> option St) (step : J -> St -> Key * C -> option (list (I * C))) (js : list J).
Definition builder (items : list (Key * C)) (m : I -> C) : option (I -> C) :=
  match oconcat (fun j => match pre j with None => None | Some s => oconcat (step j s) items end) js with
  | None => None
  | Some us => Some (run_updates ieq us m)
  end.
Definition upd_sum (i : I) (us : option (list (I * C))) : C :=
  match us with Some us => rsum (fun u => if ieq i (fst u) then snd u else 0) us | None => 0 end.
(** the contribution of one item to entry i *)
Definition contrib (i : I) (k : Key) (v : C) : C :=
  rsum (fun j => match pre j with None => 0 | Some s => upd_sum i (step j s (k, v)) end) js.
Definition fine (k : Key) : Prop := forall j s v, In j js -> pre j = Some s -> step j s (k, v) <> None.
Hypothesis step_add : forall j s k v w i, upd_sum i (step j s (k, v + w)) = upd_sum i (step j s (k, v)) + upd_sum i (step j s (k, w)).
Hypothesis step_ok : forall j s k v w, step j s (k, v) <> None -> step j s (k, w) <> None.
Lemma contrib_add : forall i k v w, contrib i k (v + w) = contrib i k v + contrib i k w.
Proof.
  intros. unfold contrib. rewrite <- rsum_plus. apply rsum_ext. intros j _. destruct (pre j); [apply step_add|ring].
Qed.
Lemma builder_val : forall items m m', builder items m = Some m' ->
  forall i, m' i = m i + rsum (fun e => contrib i (fst e) (snd e)) items.
Proof.
  intros items m m' H i. unfold builder in H.
  destruct (oconcat _ js) as [us|] eqn:E; [|discriminate]. injection H as <-.
  rewrite run_updates_sum. f_equal. rewrite (rsum_ext C _ (fun e => contrib i (fst e) (snd e))
    (fun e => rsum (fun j => match pre j with None => 0 | Some s => upd_sum i (step j s e) end) js)) by (intros [k v] _; reflexivity).
  rewrite rsum_swap. rewrite (oconcat_flat _ _ _ _ _ E), rsum_flat_map. apply rsum_ext. intros j Hj.
  destruct (oconcat_inv _ _ _ _ _ E j Hj) as (r & Er). rewrite Er. destruct (pre j) as [s|]; [|discriminate].
  rewrite (oconcat_flat _ _ _ _ _ Er), rsum_flat_map. apply rsum_ext. intros e He.
  destruct (oconcat_inv _ _ _ _ _ Er e He) as (r' & Er'). now rewrite Er'.
Qed.
Lemma builder_ok : forall items m, (exists m', builder items m = Some m') <->
  (forall j, In j js -> pre j <> None) /\ forall k, In k (map fst items) -> fine k.
Proof.
  intros items m. split.
  - intros (m' & H). unfold builder in H. destruct (oconcat _ js) as [us|] eqn:E; [|discriminate]. split.
    + intros j Hj X. destruct (oconcat_inv _ _ _ _ _ E j Hj) as (r & Er). rewrite X in Er. discriminate.
    + intros k Hk j s v Hj Ep. apply in_map_iff in Hk. destruct Hk as ([k' w] & <- & Hin).
      destruct (oconcat_inv _ _ _ _ _ E j Hj) as (r & Er). rewrite Ep in Er.
      destruct (oconcat_inv _ _ _ _ _ Er _ Hin) as (r' & Er'). apply (step_ok j s _ w). cbn [fst]. congruence.
  - intros (Hp & Hf). unfold builder.
    rewrite (oconcat_some _ _ _ (fun j => match pre j with None => [] | Some s => flat_map (fun e => match step j s e with Some u => u | None => [] end) items end)).
    { eexists. reflexivity. }
    intros j Hj. destruct (pre j) as [s|] eqn:Ep; [|exfalso; eapply Hp; eauto].
    apply oconcat_some. intros [k v] He. specialize (Hf k (in_map fst _ _ He) j s v Hj Ep).
    destruct (step j s (k, v)); [reflexivity|congruence].
Qed.
End Builders.

Lemma oconcat_ext : forall A B (f g : A -> option (list B)) l, (forall x, f x = g x) -> oconcat f l = oconcat g l.
Proof. intros A B f g l H. induction l as [|x l IH]; cbn [oconcat]; auto. now rewrite H, IH. Qed.
(** the four builders *)
Section Instances.
Variable K : CRing.
Notation C := (Cx K).
Add Ring Cins : (rth C).
Local Open Scope rng_scope.
Variable si : SI.

Definition blk_pre (statelst : list nat) (j1 : nat) : option (list bool) :=
  match nth_error statelst j1 with None => None | Some k => get_state si k end.
Lemma block_loop_builder : forall A statelst (step : nat -> list bool -> A * C -> option (list ((nat * nat) * C))) items m,
  match block_loop K si statelst step items with None => None | Some us => Some (run_updates eq2 us m) end =
  builder K eq2 (blk_pre statelst) step (seq 0 (length statelst)) items m.
Proof.
  intros. unfold block_loop, builder.
  rewrite (oconcat_ext _ _ (fun j1 => match nth_error statelst j1 with None => None | Some k => match get_state si k with None => None
      | Some state => oconcat (step j1 state) items end end)
    (fun j => match blk_pre statelst j with None => None | Some s => oconcat (step j s) items end)); auto.
  intros j. unfold blk_pre. destruct (nth_error statelst j); auto.
Qed.

Lemma hop_step_add : forall herm statelst j s k v w i,
  upd_sum K eq2 i (hop_step K si herm statelst j s (k, v + w)) =
  upd_sum K eq2 i (hop_step K si herm statelst j s (k, v)) + upd_sum K eq2 i (hop_step K si herm statelst j s (k, w)).
Proof.
  intros herm statelst j s [j2 j3] v w i. unfold hop_step. rewrite conj_add.
  destruct (nth_error s j2) as [[|]|]; try (cbn [upd_sum]; ring); destruct (Nat.eqb j2 j3); try (cbn [upd_sum rsum]; ring).
  { cbn [upd_sum rsum fst snd]. destruct (eq2 i (j, j)); ring. }
  destruct (nth_error s j3) as [[|]|]; try (cbn [upd_sum rsum]; ring).
  destruct (get_ind si _); try (cbn [upd_sum rsum]; ring).
  destruct (index_of _ statelst) as [p|]; try (cbn [upd_sum rsum]; ring).
  destruct herm; cbn [upd_sum rsum fst snd]; destruct (eq2 i (p, j)); try destruct (eq2 i (j, p)); ring.
Qed.
Lemma hop_step_ok : forall herm statelst j s k v w,
  hop_step K si herm statelst j s (k, v) <> None -> hop_step K si herm statelst j s (k, w) <> None.
Proof.
  intros herm statelst j s [j2 j3] v w. unfold hop_step.
  destruct (nth_error s j2) as [[|]|]; try congruence; destruct (Nat.eqb j2 j3); try congruence.
  destruct (nth_error s j3) as [[|]|]; try congruence.
  destruct (get_ind si _); try congruence.
  destruct (index_of _ statelst) as [p|]; congruence.
Qed.
Lemma coul_step_add : forall hc ml statelst j s k v w i,
  upd_sum K eq2 i (coul_step K si hc ml statelst j s (k, v + w)) =
  upd_sum K eq2 i (coul_step K si hc ml statelst j s (k, v)) + upd_sum K eq2 i (coul_step K si hc ml statelst j s (k, w)).
Proof.
  intros hc ml statelst j s [[[m n] k] l] v w i. unfold coul_step. rewrite conj_add.
  destruct (nth_error s k) as [[|]|]; try (cbn [upd_sum rsum]; ring).
  destruct (nth_error s l) as [[|]|]; try (cbn [upd_sum rsum]; ring).
  destruct (Nat.eqb k l); try (cbn [upd_sum rsum]; ring).
  destruct (nth_error _ m) as [[|]|]; try (cbn [upd_sum rsum]; ring).
  destruct (nth_error _ n) as [[|]|]; try (cbn [upd_sum rsum]; ring).
  destruct (Nat.eqb m n); try (cbn [upd_sum rsum]; ring).
  destruct (get_ind si _); try (cbn [upd_sum rsum]; ring).
  destruct (index_of _ statelst) as [p|]; try (cbn [upd_sum rsum]; ring).
  destruct (hc && _ && _)%bool; cbn [upd_sum rsum fst snd]; destruct (eq2 i (p, j)); try destruct (eq2 i (j, p)); ring.
Qed.
Lemma coul_step_ok : forall hc ml statelst j s k v w,
  coul_step K si hc ml statelst j s (k, v) <> None -> coul_step K si hc ml statelst j s (k, w) <> None.
Proof.
  intros hc ml statelst j s [[[m n] k] l] v w. unfold coul_step.
  destruct (nth_error s k) as [[|]|]; try congruence.
  destruct (nth_error s l) as [[|]|]; try congruence.
  destruct (Nat.eqb k l); try congruence.
  destruct (nth_error _ m) as [[|]|]; try congruence.
  destruct (nth_error _ n) as [[|]|]; try congruence.
  destruct (Nat.eqb m n); try congruence.
  destruct (get_ind si _); try congruence.
  destruct (index_of _ statelst) as [p|]; congruence.
Qed.
Lemma tba_step_add : forall nl j s k v w i,
  upd_sum K eq3 i (tba_step K si nl j s (k, v + w)) = upd_sum K eq3 i (tba_step K si nl j s (k, v)) + upd_sum K eq3 i (tba_step K si nl j s (k, w)).
Proof.
  intros nl j s [j3 j2] v w i. unfold tba_step. rewrite conj_add.
  destruct (nth_error s j2) as [b|]; try (cbn [upd_sum rsum]; ring).
  destruct (get_ind si _) as [p| |]; try (cbn [upd_sum rsum]; ring).
  destruct (_ && _ && _)%bool; try (cbn [upd_sum rsum]; ring).
  cbn [upd_sum rsum fst snd]. destruct (eq3 i (j3, p, j)); destruct b; ring.
Qed.
Lemma tba_step_ok : forall nl j s k v w, tba_step K si nl j s (k, v) <> None -> tba_step K si nl j s (k, w) <> None.
Proof.
  intros nl j s [j3 j2] v w. unfold tba_step.
  destruct (nth_error s j2) as [b|]; try congruence.
  destruct (get_ind si _) as [p| |]; try congruence.
  destruct (_ && _ && _)%bool; congruence.
Qed.
Lemma vbbp_step_add : forall nb j s k v w i,
  upd_sum K eq3 i (vbbp_step K si nb j s (k, v + w)) = upd_sum K eq3 i (vbbp_step K si nb j s (k, v)) + upd_sum K eq3 i (vbbp_step K si nb j s (k, w)).
Proof.
  intros nb j s [[j4 j3] j2] v w i. unfold vbbp_step.
  destruct (nth_error s j2) as [[|]|]; destruct (Nat.eqb j2 j3); try (cbn [upd_sum rsum forallb]; ring).
  { cbn [forallb]. destruct (_ && true)%bool; cbn [upd_sum rsum fst snd]; try ring. destruct (eq3 i (j4, j, j)); ring. }
  destruct (nth_error s j3) as [[|]|]; try (cbn [upd_sum rsum forallb]; ring).
  destruct (get_ind si _) as [p| |]; try (cbn [upd_sum rsum forallb]; ring).
  cbn [forallb]. destruct (_ && true)%bool; cbn [upd_sum rsum fst snd]; try ring. destruct (eq3 i (j4, p, j)); ring.
Qed.
Lemma vbbp_step_ok : forall nb j s k v w, vbbp_step K si nb j s (k, v) <> None -> vbbp_step K si nb j s (k, w) <> None.
Proof.
  intros nb j s [[j4 j3] j2] v w. unfold vbbp_step.
  destruct (nth_error s j2) as [[|]|]; destruct (Nat.eqb j2 j3); try (cbn [forallb]; congruence).
  { cbn [forallb]. destruct (_ && true)%bool; congruence. }
  destruct (nth_error s j3) as [[|]|]; try (cbn [forallb]; congruence).
  destruct (get_ind si _) as [p| |]; try (cbn [forallb]; congruence).
  cbn [forallb]. destruct (_ && true)%bool; congruence.
Qed.

Lemma hop_builder : forall herm hs lst m, construct_ham_hopping K si herm hs lst m =
  builder K eq2 (blk_pre lst) (hop_step K si herm lst) (seq 0 (length lst)) hs m.
Proof. intros. apply block_loop_builder. Qed.
Lemma coul_builder : forall hc ml cl lst m, construct_ham_coulomb K si hc ml cl lst m =
  builder K eq2 (blk_pre lst) (coul_step K si hc ml lst) (seq 0 (length lst)) cl m.
Proof. intros. apply block_loop_builder. Qed.
Lemma tba_builder : forall nl t m, construct_Tba K si nl t m =
  builder K eq3 (get_state si) (tba_step K si nl) (seq 0 (si_nmany si)) t m.
Proof. reflexivity. Qed.
Lemma vbbp_builder : forall nb v m, elph_construct_Vbbp K si nb v m =
  builder K eq3 (get_state si) (vbbp_step K si nb) (seq 0 (si_nmany si)) v m.
Proof. reflexivity. Qed.
End Instances.

(** ** dictionaries made from an input *)
Section Inputs.
Variable K : CRing.
Notation C := (Cx K).
Variable isz : C -> bool.
Context {Key : Type}.
Variable keq : forall a b : Key, {a = b} + {a <> b}.
Local Notation dget := (@dget Key C keq).
Local Notation dset := (@dset Key C keq).
Lemma spin_double_get : forall (shift : Key -> Key) (unshift : Key -> option Key) (d : dict Key C) k, NoDup (map fst d) ->
  (forall k k0, unshift k = Some k0 <-> k = shift k0) ->
  dget (spin_double K keq shift d) k =
  match unshift k with Some k0 => match dget d k0 with Some v => Some v | None => dget d k end | None => dget d k end.
Proof.
  intros shift unshift d k ND U. unfold spin_double.
  assert (G : forall l s, NoDup (map fst l) -> dget (fold_left (fun s e => dset s (shift (fst e)) (snd e)) l s) k =
    match unshift k with Some k0 => match dget l k0 with Some v => Some v | None => dget s k end | None => dget s k end).
  { induction l as [|[k1 v] l IH]; intros s N; [cbn; now destruct (unshift k)|].
    cbn [map fst] in N. inversion N as [|x xs N1 N2]; subst. cbn [fold_left fst snd]. rewrite IH by auto. rewrite dget_set.
    cbn [Params.dget]. destruct (unshift k) as [k0|] eqn:E.
    - destruct (keq k0 k1) as [->|Hne].
      + replace (dget l k1) with (@None C) by (symmetry; now apply dget_none).
        apply U in E. destruct (keq k (shift k1)); congruence.
      + destruct (dget l k0); auto. destruct (keq k (shift k1)) as [->|]; auto.
        exfalso. apply Hne. assert (X : unshift (shift k1) = Some k1) by now apply U. congruence.
    - destruct (keq k (shift k1)) as [->|]; auto. assert (X : unshift (shift k1) = Some k1) by now apply U. congruence. }
  apply G. auto.
Qed.
Lemma arr_items_get : forall keys (f : Key -> C) az k, NoDup keys -> dget (dupdate keq [] (arr_items K isz keys f az)) k =
  if in_dec keq k keys then (if (negb (isz (f k)) || az)%bool then Some (f k) else None) else None.
Proof.
  intros keys f az k ND. rewrite dupdate_get. cbn [Params.dget].
  assert (KE : map fst (arr_items K isz keys f az) = filter (fun k => (negb (isz (f k)) || az)%bool) keys).
  { unfold arr_items. rewrite map_map. cbn [fst]. apply map_id. }
  assert (N : NoDup (map fst (arr_items K isz keys f az))) by (rewrite KE; now apply NoDup_filter).
  rewrite last_of_nodup by auto.
  destruct (dget (arr_items K isz keys f az) k) as [v|] eqn:E.
  - apply dget_in in E. unfold arr_items in E. apply in_map_iff in E. destruct E as (k' & E & H). injection E as -> <-.
    apply filter_In in H. destruct H as (H & ->). destruct (in_dec keq k keys); [reflexivity|contradiction].
  - apply dget_none in E. rewrite KE in E. destruct (in_dec keq k keys) as [H|]; auto.
    destruct (negb (isz (f k)) || az)%bool eqn:Q; auto. exfalso. apply E. apply filter_In. auto.
Qed.
End Inputs.
Lemma hs_keys_in : forall herm n k, In k (hs_keys herm n) <-> (fst k < n /\ snd k < n /\ (herm = true -> fst k <= snd k)).
Proof.
  intros herm n [i j]. unfold hs_keys. rewrite in_flat_map. cbn [fst snd]. split.
  - intros (j1 & H1 & H2). apply in_seq in H1. apply in_map_iff in H2. destruct H2 as (j2 & E & H2). injection E as -> ->.
    apply in_seq in H2. destruct herm; repeat split; try lia; try discriminate.
  - intros (Hi & Hj & Hh). exists i. split; [apply in_seq; lia|]. apply in_map. apply in_seq. destruct herm; [specialize (Hh eq_refl)|]; lia.
Qed.
Lemma hs_keys_nodup : forall herm n, NoDup (hs_keys herm n).
Proof.
  intros herm n. unfold hs_keys. assert (G : forall l, NoDup l -> NoDup (flat_map (fun j1 => map (fun j2 => (j1, j2))
     (seq (if herm then j1 else 0) (n - (if herm then j1 else 0)))) l)).
  { induction l as [|j l IH]; intros ND; [constructor|]. inversion ND as [|x xs N1 N2]; subst. cbn [flat_map].
    apply NoDup_app_intro; auto.
    - apply FinFun.Injective_map_NoDup; [intros x y E; congruence|apply seq_NoDup].
    - intros x Hx Hy. apply in_map_iff in Hx. destruct Hx as (j2 & <- & _). apply in_flat_map in Hy.
      destruct Hy as (j' & Hj & Hy). apply in_map_iff in Hy. destruct Hy as (j2' & E & _). injection E as -> _. contradiction. }
  apply G, seq_NoDup.
Qed.
