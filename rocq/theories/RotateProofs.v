(** Lemmas for Rotate.v: a matrix cut into blocks. *)
From Coq Require Import String List Arith Lia ZArith Bool Permutation Ring.
From Verif Require Import Base Bits Indexing IndexingProofs RemoveProofs SsqProofs Qn CRing Fock Operators OperatorsProofs Layout Rates EnergiesProofs Rotate.
Import ListNotations.
Open Scope nat_scope.
Local Notation length := List.length.

Lemma last_seq : forall s n, last (seq s (S n)) 0 = s + n.
Proof.
  intros s n. revert s. induction n; intros; [simpl; lia|].
  change (seq s (S (S n))) with (s :: seq (S s) (S n)).
  change (last (s :: seq (S s) (S n)) 0) with (last (seq (S s) (S n)) 0). rewrite IHn. lia.
Qed.

Section Generic.
Variable K : CRing.
Local Notation C := (Cx K).
Local Open Scope rng_scope.
Add Ring CrotP : (rth C).
Local Notation mat := (mat K).

Variables (X : Type) (xeq : forall a b : X, {a = b} + {a <> b}).
Variables (cells : list X) (pre : X -> list Z) (blk : X -> list nat) (m : nat).
Hypothesis CO : cells_ok cells pre blk m.
Variable V : X -> mat.

Definition place (x : X) (a i : nat) : Prop := In x cells /\ nth_error (blk x) a = Some i.

Lemma place_ex : forall i, (i < m)%nat -> exists x a, place x a i.
Proof.
  intros i Hi. destruct (cells_unique _ _ _ _ _ i CO Hi) as ([x a] & H & _). exists x, a. exact H.
Qed.

Lemma place_in : forall x a i, place x a i -> In i (blk x).
Proof. intros x a i [_ H]. eapply nth_error_In; eauto. Qed.

Lemma place_lt : forall x a i, place x a i -> (i < m)%nat.
Proof. intros x a i H. apply (co_cover _ _ _ _ CO). exists x. split; [apply H|eapply place_in; eauto]. Qed.

Lemma place_cell : forall x a i y, place x a i -> In y cells -> In i (blk y) -> x = y.
Proof. intros x a i y H Hy Hi. eapply (co_disj _ _ _ _ CO); eauto; [apply H|eapply place_in; eauto]. Qed.

Lemma place_inj : forall x a i y b, place x a i -> place y b i -> x = y /\ a = b.
Proof.
  intros x a i y b H1 H2. pose proof (place_lt _ _ _ H1) as Hi.
  destruct (cells_unique _ _ _ _ _ i CO Hi) as (p & _ & U).
  pose proof (U (x, a) H1) as E1. pose proof (U (y, b) H2) as E2. split; congruence.
Qed.

Lemma place_nth : forall x a, In x cells -> (a < length (blk x))%nat -> place x a (nth a (blk x) 0%nat).
Proof. intros. split; auto. now apply nth_error_of_nth. Qed.

Lemma place_val : forall x a i, place x a i -> i = nth a (blk x) 0%nat /\ (a < length (blk x))%nat.
Proof.
  intros x a i [_ H]. split.
  - symmetry. now apply nth_error_nth.
  - apply nth_error_Some. congruence.
Qed.

Lemma sum_cells : forall f : nat -> C,
  rsum f (seq 0 m) = rsum (fun x => rsum (fun a => f (nth a (blk x) 0%nat)) (seq 0 (length (blk x)))) cells.
Proof.
  intros f. rewrite (rsum_perm _ _ f (seq 0 m) (flat_map blk cells)).
  - rewrite rsum_flat_map. apply rsum_ext. intros x Hx.
    rewrite (list_as_map_nth _ 0%nat (blk x)) at 1. rewrite rsum_map. reflexivity.
  - apply NoDup_Permutation; [apply seq_NoDup| |].
    + apply NoDup_flat_map; [apply (co_nodup _ _ _ _ CO)|apply (co_blk _ _ _ _ CO)|apply (co_disj _ _ _ _ CO)].
    + intros k. rewrite in_seq, in_flat_map. rewrite (co_cover _ _ _ _ CO). lia.
Qed.

(** ** The matrix of eigenvectors *)
Definition is_pmtr (P : mat) : Prop := forall x a i y b j, place x a i -> place y b j ->
  P i j = if xeq x y then V x a b else 0.

Lemma pmtr_of_writes : forall ws, 
  (forall u, In u ws -> exists x a b, In x cells /\ (a < length (blk x))%nat /\ (b < length (blk x))%nat /\
      u = ((nth a (blk x) 0%nat, nth b (blk x) 0%nat), V x a b)) ->
  (forall x a b, In x cells -> (a < length (blk x))%nat -> (b < length (blk x))%nat ->
      exists v, In ((nth a (blk x) 0%nat, nth b (blk x) 0%nat), v) ws) ->
  is_pmtr (fun i j => run_writes eq2 ws (fun _ => 0) (i, j)).
Proof.
  intros ws H1 H2 x a i y b j Hx Hy.
  destruct (place_val _ _ _ Hx) as [Ei La]. destruct (place_val _ _ _ Hy) as [Ej Lb].
  apply run_writes_val.
  - intros u Hu E. destruct (H1 u Hu) as (z & a' & b' & Hz & La' & Lb' & ->). cbn [fst snd] in *.
    injection E as E1 E2.
    destruct (place_inj x a i z a' Hx) as [<- <-]. { rewrite <- E1. now apply place_nth. }
    destruct (place_inj y b j x b' Hy) as [-> <-]. { rewrite <- E2. now apply place_nth. }
    destruct (xeq x x); congruence.
  - destruct (xeq x y) as [<-|]; [right|now left].
    destruct (H2 x a b) as [v Hv]; auto; [apply Hx|]. eexists. split; [exact Hv|]. cbn. congruence.
Qed.

(** ** The full rotation, element by element *)
Definition rot_el (T : mat) (x : X) (a : nat) (y : X) (b : nat) : C :=
  rsum (fun a' => conj (V x a' a) *
     rsum (fun b' => T (nth a' (blk x) 0%nat) (nth b' (blk y) 0%nat) * V y b' b) (seq 0 (length (blk y))))
   (seq 0 (length (blk x))).

Lemma sum_at : forall (g : X -> nat -> C) (f : nat -> C) y, In y cells ->
  (forall x a, In x cells -> (a < length (blk x))%nat -> f (nth a (blk x) 0%nat) = if xeq x y then g x a else 0) ->
  rsum f (seq 0 m) = rsum (fun a => g y a) (seq 0 (length (blk y))).
Proof.
  intros g f y Hy H. rewrite sum_cells.
  rewrite (rsum_single _ _ _ cells y (co_nodup _ _ _ _ CO) Hy).
  - apply rsum_ext. intros a Ha. apply in_seq in Ha. rewrite H by (auto; lia). destruct (xeq y y); congruence.
  - intros x Hx Hne. apply rsum_0. intros a Ha. apply in_seq in Ha. rewrite H by (auto; lia).
    destruct (xeq x y); congruence.
Qed.

Lemma lin_val : forall P T x a i y b j, is_pmtr P -> place x a i -> place y b j ->
  ndot K m (ct K P) (ndot K m T P) i j = rot_el T x a y b.
Proof.
  intros P T x a i y b j HP Hx Hy. unfold ndot, ct, rot_el.
  apply (sum_at (fun x' a' => conj (V x' a' a) *
     rsum (fun b' => T (nth a' (blk x') 0%nat) (nth b' (blk y) 0%nat) * V y b' b) (seq 0 (length (blk y)))));
    [apply Hx|].
  intros z c Hz Hc. rewrite (HP z c _ x a i (place_nth z c Hz Hc) Hx).
  destruct (xeq z x) as [->|]; [|rewrite conj_0; ring].
  f_equal. apply (sum_at (fun y' b' => T (nth c (blk x) 0%nat) (nth b' (blk y') 0%nat) * V y' b' b)); [apply Hy|].
  intros z d Hz' Hd. rewrite (HP z d _ y b j (place_nth z d Hz' Hd) Hy).
  destruct (xeq z y) as [->|]; ring.
Qed.

(** ** Block by block *)
Hypothesis CONT : forall x, In x cells -> exists s, blk x = seq s (length (blk x)).

Lemma block_ends : forall x, In x cells -> blk x <> [] ->
  exists i1 r, blk x = i1 :: r /\ (S (last (blk x) 0) - i1 = length (blk x))%nat /\
    (forall a, (a < length (blk x))%nat -> nth a (blk x) 0%nat = (i1 + a)%nat) /\
    forall i, In i (blk x) <-> (i1 <= i < S (last (blk x) 0))%nat.
Proof.
  intros x Hx Hn. destruct (CONT x Hx) as [s E]. destruct (length (blk x)) as [|n] eqn:L; [now destruct (blk x)|].
  exists s, (seq (S s) n). rewrite E, last_seq. split; [reflexivity|]. split; [lia|]. split.
  - intros a Ha. rewrite seq_nth by lia. lia.
  - intros i. rewrite in_seq. lia.
Qed.

Lemma wblock_in : forall T i1 i2 i3 i4 f i j, (i1 <= i < i2)%nat -> (i3 <= j < i4)%nat ->
  wblock K T i1 i2 i3 i4 f i j = f (i - i1)%nat (j - i3)%nat.
Proof.
  intros. unfold wblock.
  replace ((i1 <=? i) && (i <? i2) && (i3 <=? j) && (j <? i4))%nat%bool with true; auto. symmetry.
  rewrite !andb_true_iff, !Nat.leb_le, !Nat.ltb_lt. lia.
Qed.
Lemma wblock_out : forall T i1 i2 i3 i4 f i j, ~ ((i1 <= i < i2)%nat /\ (i3 <= j < i4)%nat) ->
  wblock K T i1 i2 i3 i4 f i j = T i j.
Proof.
  intros. unfold wblock.
  replace ((i1 <=? i) && (i <? i2) && (i3 <=? j) && (j <? i4))%nat%bool with false; auto. symmetry.
  apply not_true_is_false. rewrite !andb_true_iff, !Nat.leb_le, !Nat.ltb_lt. lia.
Qed.

Lemma block_value : forall T0 x y i1 i3 a b, In x cells -> In y cells ->
  (forall a, (a < length (blk x))%nat -> nth a (blk x) 0%nat = (i1 + a)%nat) ->
  (forall b, (b < length (blk y))%nat -> nth b (blk y) 0%nat = (i3 + b)%nat) ->
  ndot K (length (blk x)) (ct K (V x)) (ndot K (length (blk y)) (slice K T0 i1 i3) (V y)) a b = rot_el T0 x a y b.
Proof.
  intros T0 x y i1 i3 a b Hx Hy E1 E2. unfold ndot, ct, slice, rot_el.
  apply rsum_ext. intros a' Ha. apply in_seq in Ha. f_equal. apply rsum_ext. intros b' Hb. apply in_seq in Hb.
  now rewrite E1, E2 by lia.
Qed.

Definition others (strict : bool) (x : X) : Prop := strict = true -> blk x <> [].

Lemma pair_step : forall strict T0 x y T, In x cells -> In y cells -> x <> y -> others strict x -> others strict y ->
  exists T', rot_pair K strict T0 (blk x) (blk y) (V x) (V y) T = Some T' /\
    forall z a i w b j, place z a i -> place w b j ->
      (z = x /\ w = y -> T' i j = rot_el T0 x a y b) /\
      (z = y /\ w = x -> T' i j = conj (rot_el T0 x b y a)) /\
      (~ (z = x /\ w = y) -> ~ (z = y /\ w = x) -> T' i j = T i j).
Proof.
  intros strict T0 x y T Hx Hy Hne Ox Oy.
  destruct (list_eq_dec Nat.eq_dec (blk x) []) as [Ex|Nx].
  { assert (E : rot_pair K strict T0 (blk x) (blk y) (V x) (V y) T = Some T).
    { unfold rot_pair. rewrite Ex. destruct strict; auto. now elim (Ox eq_refl). }
    exists T. split; auto. intros z a i w b j Hz Hw. apply place_in in Hz as Iz. apply place_in in Hw as Iw.
    split; [|split]; auto; intros [-> ->]; [rewrite Ex in Iz|rewrite Ex in Iw]; easy. }
  destruct (list_eq_dec Nat.eq_dec (blk y) []) as [Ey|Ny].
  { assert (E : rot_pair K strict T0 (blk x) (blk y) (V x) (V y) T = Some T).
    { unfold rot_pair. rewrite Ey. destruct (blk x); destruct strict; auto; now elim (Oy eq_refl). }
    exists T. split; auto. intros z a i w b j Hz Hw. apply place_in in Hz as Iz. apply place_in in Hw as Iw.
    split; [|split]; auto; intros [-> ->]; [rewrite Ey in Iw|rewrite Ey in Iz]; easy. }
  destruct (block_ends x Hx Nx) as (i1 & rx & Ex & Lx & Vx & Ix).
  destruct (block_ends y Hy Ny) as (i3 & ry & Ey & Ly & Vy & Iy).
  set (i2 := S (last (blk x) 0%nat)) in *. set (i4 := S (last (blk y) 0%nat)) in *.
  set (f := ndot K (length (blk x)) (ct K (V x)) (ndot K (length (blk y)) (slice K T0 i1 i3) (V y))).
  set (T1 := wblock K T i1 i2 i3 i4 f).
  exists (wblock K T1 i3 i4 i1 i2 (ct K (slice K T1 i1 i3))). split.
  { unfold rot_pair. rewrite Ex at 1. rewrite Ey at 1. cbv beta iota. fold i2 i4. unfold T1, f. now rewrite Lx, Ly. }
  assert (INJ : forall z a i, place z a i -> (i1 <= i < i2)%nat -> z = x).
  { intros z a i Hz Hi. eapply place_cell; eauto. now apply Ix. }
  assert (INJ' : forall z a i, place z a i -> (i3 <= i < i4)%nat -> z = y).
  { intros z a i Hz Hi. eapply place_cell; eauto. now apply Iy. }
  assert (POS : forall a i, place x a i -> (i1 <= i < i2)%nat /\ (i - i1)%nat = a).
  { intros a i Hz. split; [apply Ix; eapply place_in; eauto|]. destruct (place_val _ _ _ Hz) as [-> L].
    rewrite Vx by auto. lia. }
  assert (POS' : forall a i, place y a i -> (i3 <= i < i4)%nat /\ (i - i3)%nat = a).
  { intros a i Hz. split; [apply Iy; eapply place_in; eauto|]. destruct (place_val _ _ _ Hz) as [-> L].
    rewrite Vy by auto. lia. }
  intros z a i w b j Hz Hw. split; [|split].
  - intros [-> ->]. destruct (POS _ _ Hz) as [B1 E1]. destruct (POS' _ _ Hw) as [B2 E2].
    rewrite wblock_out by (intros [Q _]; apply Hne; eapply INJ'; eauto).
    unfold T1. rewrite wblock_in, E1, E2 by auto. unfold f. now apply block_value.
  - intros [-> ->]. destruct (POS' _ _ Hz) as [B1 E1]. destruct (POS _ _ Hw) as [B2 E2].
    rewrite wblock_in, E1, E2 by auto. unfold ct, slice. unfold T1.
    rewrite wblock_in by lia. unfold f.
    replace (i1 + b - i1)%nat with b by lia. replace (i3 + a - i3)%nat with a by lia.
    f_equal. now apply block_value.
  - intros N1 N2. rewrite wblock_out.
    + unfold T1. apply wblock_out. intros [Q1 Q2]. apply N1. split; eauto.
    + intros [Q1 Q2]. apply N2. split; eauto.
Qed.

Lemma pairs_val : forall strict bo T0 prs T,
  (forall x y, In (x, y) prs -> In x cells /\ In y cells /\ x <> y /\ others strict x /\ others strict y /\
     bo x = Some (blk x) /\ bo y = Some (blk y)) ->
  (forall x y, In (x, y) prs -> ~ In (y, x) prs) ->
  exists T', fold_left (fun acc p => match acc, bo (fst p), bo (snd p) with
    | Some T, Some b1, Some b2 => rot_pair K strict T0 b1 b2 (V (fst p)) (V (snd p)) T
    | _, _, _ => None end) prs (Some T) = Some T' /\
    forall x a i y b j, place x a i -> place y b j ->
      (In (x, y) prs -> T' i j = rot_el T0 x a y b) /\
      (In (y, x) prs -> T' i j = conj (rot_el T0 y b x a)) /\
      (~ In (x, y) prs -> ~ In (y, x) prs -> T' i j = T i j).
Proof.
  intros strict bo T0 prs. induction prs as [|[x0 y0] prs IH]; intros T H NS.
  - exists T. split; auto. intros. split; [|split]; auto; intros [].
  - destruct (H x0 y0) as (H1 & H2 & H3 & H4 & H5 & H6 & H7); [now left|].
    destruct (pair_step strict T0 x0 y0 T H1 H2 H3 H4 H5) as (T1 & E1 & V1).
    destruct (IH T1) as (T' & E' & V').
    { intros; apply H; now right. }
    { intros x y Hi Hj. apply (NS x y); now right. }
    exists T'. split. { cbn [fold_left fst snd]. now rewrite H6, H7, E1. }
    intros x a i y b j Hx Hy. destruct (V' x a i y b j Hx Hy) as (A1 & A2 & A3).
    destruct (V1 x a i y b j Hx Hy) as (B1 & B2 & B3).
    assert (D : forall u v : X, In (u, v) prs \/ ~ In (u, v) prs).
    { intros u v. destruct (in_dec (fun p q : X * X => ltac:(decide equality)) (u, v) prs); auto. }
    split; [|split].
    + intros Hin. destruct (D x y) as [Q|Q]; [auto|]. destruct Hin as [E|]; [|easy]. injection E as -> ->.
      rewrite A3; auto. intros Q'. apply (NS x y); [now left|now right].
    + intros Hin. destruct (D y x) as [Q|Q]; [auto|]. destruct Hin as [E|]; [|easy]. injection E as -> ->.
      rewrite A3; auto. intros Q'. apply (NS x y); [now right|now left].
    + intros N1 N2. rewrite A3; [|firstorder|firstorder].
      apply B3; intros [-> ->]; [apply N1|apply N2]; now left.
Qed.

Lemma diag_step : forall strict T0 x T, In x cells -> others strict x ->
  exists T', rot_diag K strict T0 (blk x) (V x) T = Some T' /\
    forall z a i w b j, place z a i -> place w b j ->
      (z = x /\ w = x -> T' i j = rot_el T0 x a x b) /\
      (~ (z = x /\ w = x) -> T' i j = T i j).
Proof.
  intros strict T0 x T Hx Ox.
  destruct (list_eq_dec Nat.eq_dec (blk x) []) as [Ex|Nx].
  { assert (E : rot_diag K strict T0 (blk x) (V x) T = Some T).
    { unfold rot_diag. rewrite Ex. destruct strict; auto. now elim (Ox eq_refl). }
    exists T. split; auto. intros z a i w b j Hz Hw. apply place_in in Hz as Iz.
    split; auto; intros [-> ->]; rewrite Ex in Iz; easy. }
  destruct (block_ends x Hx Nx) as (i1 & rx & Ex & Lx & Vx & Ix).
  set (i2 := S (last (blk x) 0%nat)) in *.
  set (f := ndot K (length (blk x)) (ct K (V x)) (ndot K (length (blk x)) (slice K T0 i1 i1) (V x))).
  exists (wblock K T i1 i2 i1 i2 f). split.
  { unfold rot_diag. rewrite Ex at 1. cbv beta iota. fold i2. unfold f. now rewrite Lx. }
  assert (INJ : forall z a i, place z a i -> (i1 <= i < i2)%nat -> z = x).
  { intros z a i Hz Hi. eapply place_cell; eauto. now apply Ix. }
  assert (POS : forall a i, place x a i -> (i1 <= i < i2)%nat /\ (i - i1)%nat = a).
  { intros a i Hz. split; [apply Ix; eapply place_in; eauto|]. destruct (place_val _ _ _ Hz) as [-> L].
    rewrite Vx by auto. lia. }
  intros z a i w b j Hz Hw. split.
  - intros [-> ->]. destruct (POS _ _ Hz) as [B1 E1]. destruct (POS _ _ Hw) as [B2 E2].
    rewrite wblock_in, E1, E2 by auto. now apply block_value.
  - intros N. apply wblock_out. intros [Q1 Q2]. apply N. split; eauto.
Qed.

Lemma diags_val : forall strict bo T0 cs T,
  (forall x, In x cs -> In x cells /\ others strict x /\ bo x = Some (blk x)) ->
  exists T', fold_left (fun acc x => match acc, bo x with
    | Some T, Some b => rot_diag K strict T0 b (V x) T
    | _, _ => None end) cs (Some T) = Some T' /\
    forall x a i y b j, place x a i -> place y b j ->
      (x = y -> In x cs -> T' i j = rot_el T0 x a y b) /\
      (~ (x = y /\ In x cs) -> T' i j = T i j).
Proof.
  intros strict bo T0 cs. induction cs as [|x0 cs IH]; intros T H.
  - exists T. split; auto. intros. split; auto. intros _ [].
  - destruct (H x0) as (H1 & H2 & H3); [now left|].
    destruct (diag_step strict T0 x0 T H1 H2) as (T1 & E1 & V1).
    destruct (IH T1) as (T' & E' & V'). { intros; apply H; now right. }
    exists T'. split. { cbn [fold_left]. now rewrite H3, E1. }
    intros x a i y b j Hx Hy. destruct (V' x a i y b j Hx Hy) as (A1 & A2).
    destruct (V1 x a i y b j Hx Hy) as (B1 & B2). split.
    + intros <- Hin. destruct (in_dec xeq x cs) as [Q|Q]; [auto|]. destruct Hin as [->|]; [|easy].
      rewrite A2; tauto.
    + intros N. rewrite A2; [|intros [Q1 Q2]; apply N; split; auto; now right].
      apply B2. intros [-> ->]. apply N. split; auto. now left.
Qed.

(** ** Consequences *)
(** Hermitian, with no condition on the eigenvectors *)
Definition hermitian_on (T : mat) : Prop := forall i j, (i < m)%nat -> (j < m)%nat -> T i j = conj (T j i).

Lemma rot_el_herm : forall T x a y b, hermitian_on T -> In x cells -> In y cells ->
  rot_el T x a y b = conj (rot_el T y b x a).
Proof.
  intros T x a y b H Hx Hy. unfold rot_el. rewrite rsum_conj.
  rewrite (rsum_ext _ _ _ (fun a' => rsum (fun b' => conj (V x a' a) *
    (T (nth a' (blk x) 0%nat) (nth b' (blk y) 0%nat) * V y b' b)) (seq 0 (length (blk y)))))
    by (intros; now rewrite rsum_mul_l).
  rewrite rsum_swap. apply rsum_ext. intros b' Hb. apply in_seq in Hb.
  rewrite conj_mul, conj_conj, rsum_conj, <- rsum_mul_l. apply rsum_ext. intros a' Ha. apply in_seq in Ha.
  rewrite conj_mul. rewrite (H (nth a' (blk x) 0%nat)).
  - ring.
  - eapply place_lt, place_nth; eauto; lia.
  - eapply place_lt, place_nth; eauto; lia.
Qed.

Lemma rot_el_zero : forall T x a y b,
  (forall a' b', (a' < length (blk x))%nat -> (b' < length (blk y))%nat ->
     T (nth a' (blk x) 0%nat) (nth b' (blk y) 0%nat) = 0) -> rot_el T x a y b = 0.
Proof.
  intros T x a y b H. unfold rot_el. apply rsum_0. intros a' Ha. apply in_seq in Ha.
  rewrite rsum_0; [ring|]. intros b' Hb. apply in_seq in Hb. rewrite H by lia. ring.
Qed.
End Generic.
