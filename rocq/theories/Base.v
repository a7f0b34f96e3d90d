(** Shared list machinery: Python-style indexing, in-place updates, bucket loops,
    contiguous enumeration.  Nothing here is specific to one Python file. *)
From Coq Require Import List Arith Lia ZArith Bool Permutation.
Import ListNotations.
Set Implicit Arguments.

(** ** Python list indexing [l[k]] for an integer [k]: negative indices count from the end,
    [None] stands for IndexError. *)
Definition py_nth {A} (l : list A) (k : Z) : option A :=
  if (0 <=? k)%Z then nth_error l (Z.to_nat k)
  else if (- Z.of_nat (length l) <=? k)%Z
       then nth_error l (Z.to_nat (Z.of_nat (length l) + k))
       else None.

(** ** In-place update [l[k] = f(l[k])]; out-of-range positions leave the list alone
    (every use is accompanied by a range lemma). *)
Fixpoint upd_nth {A} (k : nat) (f : A -> A) (l : list A) : list A :=
  match l, k with
  | [], _ => []
  | x :: t, 0 => f x :: t
  | x :: t, S k' => x :: upd_nth k' f t
  end.

(** [l[k] = v] *)
Definition set_nth {A} (k : nat) (v : A) (l : list A) : list A := upd_nth k (fun _ => v) l.

Lemma upd_nth_length : forall A (f : A -> A) l k, length (upd_nth k f l) = length l.
Proof. induction l; destruct k; simpl; auto. Qed.

Lemma set_nth_length : forall A (v : A) l k, length (set_nth k v l) = length l.
Proof. intros; apply upd_nth_length. Qed.

Lemma nth_error_upd_same : forall A (f : A -> A) l k,
  nth_error (upd_nth k f l) k = option_map f (nth_error l k).
Proof. induction l; destruct k; simpl; auto. Qed.

Lemma nth_error_upd_other : forall A (f : A -> A) l k m, k <> m ->
  nth_error (upd_nth k f l) m = nth_error l m.
Proof.
  induction l; destruct k, m; simpl; intros; auto; try lia.
Qed.

Lemma nth_error_set_same : forall A (v : A) l k, k < length l ->
  nth_error (set_nth k v l) k = Some v.
Proof.
  intros. unfold set_nth. rewrite nth_error_upd_same.
  destruct (nth_error l k) eqn:E; simpl; auto.
  apply nth_error_None in E; lia.
Qed.

Lemma nth_error_set_other : forall A (v : A) l k m, k <> m ->
  nth_error (set_nth k v l) m = nth_error l m.
Proof. intros; apply nth_error_upd_other; auto. Qed.

Lemma nth_upd_same : forall A (f : A -> A) l k d, k < length l ->
  nth k (upd_nth k f l) d = f (nth k l d).
Proof. induction l; destruct k; simpl; intros; auto; try lia. apply IHl; lia. Qed.

Lemma nth_upd_other : forall A (f : A -> A) l k m d, k <> m ->
  nth m (upd_nth k f l) d = nth m l d.
Proof. induction l; destruct k, m; simpl; intros; auto; lia. Qed.

Lemma nth_set_same : forall A (v : A) l k d, k < length l -> nth k (set_nth k v l) d = v.
Proof. intros; unfold set_nth; rewrite nth_upd_same; auto. Qed.

Lemma nth_set_other : forall A (v : A) l k m d, k <> m -> nth m (set_nth k v l) d = nth m l d.
Proof. intros; apply nth_upd_other; auto. Qed.

(** ** py_nth facts *)
Lemma py_nth_nonneg : forall A (l : list A) k, (0 <= k)%Z -> py_nth l k = nth_error l (Z.to_nat k).
Proof. intros. unfold py_nth. destruct (Z.leb_spec 0 k); auto; lia. Qed.

Lemma py_nth_nat : forall A (l : list A) k, py_nth l (Z.of_nat k) = nth_error l k.
Proof. intros. rewrite py_nth_nonneg by lia. now rewrite Nat2Z.id. Qed.

Lemma py_nth_last : forall A (l : list A) x, py_nth (l ++ [x]) (-1) = Some x.
Proof.
  intros. unfold py_nth.
  destruct (Z.leb_spec 0 (-1)); [lia|].
  rewrite app_length; simpl length.
  destruct (Z.leb_spec (- Z.of_nat (length l + 1)) (-1)); [|lia].
  replace (Z.to_nat (Z.of_nat (length l + 1) + -1)) with (length l) by lia.
  rewrite nth_error_app2 by lia. now rewrite Nat.sub_diag.
Qed.

(** ** Sum of a list of naturals (Python's [sum]) *)
Definition sumn (l : list nat) : nat := fold_right Nat.add 0 l.

Lemma sumn_app : forall a b, sumn (a ++ b) = sumn a + sumn b.
Proof. induction a; simpl; intros; auto. rewrite IHa; lia. Qed.

(** ** Bucket loop: [for x in xs: L[key(x)].append(val(x))] *)
Definition bucket {A} (key : A -> nat) (xs : list A) (L : list (list A)) : list (list A) :=
  fold_left (fun L x => upd_nth (key x) (fun l => l ++ [x]) L) xs L.

Lemma bucket_length : forall A (key : A -> nat) xs L, length (bucket key xs L) = length L.
Proof.
  unfold bucket. induction xs; simpl; intros; auto.
  rewrite IHxs. apply upd_nth_length.
Qed.

Lemma bucket_nth : forall A (key : A -> nat) xs L k, k < length L ->
  nth k (bucket key xs L) [] = nth k L [] ++ filter (fun x => key x =? k) xs.
Proof.
  unfold bucket. induction xs as [|x xs IH]; simpl; intros L k Hk.
  - now rewrite app_nil_r.
  - rewrite IH by (rewrite upd_nth_length; auto).
    destruct (Nat.eqb_spec (key x) k) as [E|E].
    + subst k. rewrite nth_upd_same by auto. now rewrite <- app_assoc.
    + rewrite nth_upd_other by auto. auto.
Qed.

(** The list of buckets is determined pointwise. *)
Lemma list_eq_nth : forall A (d : A) (l l' : list A), length l = length l' ->
  (forall k, k < length l -> nth k l d = nth k l' d) -> l = l'.
Proof.
  induction l; destruct l'; simpl; intros HL H; auto; try discriminate.
  f_equal.
  - apply (H 0); lia.
  - apply IHl; [lia|]. intros k Hk. apply (H (S k)); lia.
Qed.

Lemma nth_map_seq : forall A (f : nat -> A) n k d, k < n -> nth k (map f (seq 0 n)) d = f k.
Proof.
  intros. rewrite nth_indep with (d' := f 0) by (rewrite map_length, seq_length; auto).
  rewrite map_nth, seq_nth by auto. auto.
Qed.

Lemma bucket_spec : forall A (key : A -> nat) xs n,
  bucket key xs (repeat [] n) = map (fun k => filter (fun x => key x =? k) xs) (seq 0 n).
Proof.
  intros. apply list_eq_nth with (d := []).
  - now rewrite bucket_length, repeat_length, map_length, seq_length.
  - intros k Hk. rewrite bucket_length, repeat_length in Hk.
    rewrite bucket_nth by now rewrite repeat_length.
    rewrite nth_map_seq by auto. rewrite nth_repeat. reflexivity.
Qed.

(** ** Concatenating the buckets gives a permutation of the input *)
Lemma concat_buckets_perm : forall A (key : A -> nat) n (xs : list A),
  (forall x, In x xs -> key x < n) ->
  Permutation (concat (map (fun k => filter (fun x => key x =? k) xs) (seq 0 n))) xs.
Proof.
  intros A key n xs H. revert H.
  assert (G : forall xs, Permutation
    (concat (map (fun k => filter (fun x => key x =? k) xs) (seq 0 n)))
    (filter (fun x => key x <? n) xs)).
  { induction n as [|n IH]; intros ys.
    - simpl. rewrite (filter_ext_in _ (fun _ => false)); [|intros; apply Nat.ltb_ge; lia].
      induction ys; simpl; auto.
    - rewrite seq_S, map_app, concat_app. simpl. rewrite app_nil_r.
      rewrite (IH ys). clear IH.
      induction ys as [|y ys IH]; simpl; auto.
      destruct (Nat.ltb_spec (key y) n), (Nat.eqb_spec (key y) n), (Nat.ltb_spec (key y) (S n));
        try lia; simpl; auto.
      rewrite <- Permutation_middle. auto. }
  intros H. rewrite G.
  rewrite (filter_ext_in _ (fun _ => true)).
  - replace (filter (fun _ : A => true) xs) with xs; auto.
    clear. induction xs; simpl; congruence.
  - intros x Hx. apply Nat.ltb_lt. auto.
Qed.

(** ** Contiguous enumeration of nested lists (enum_chargelst, enum_szlst) *)
Fixpoint enum_from {A} (c : nat) (L : list (list A)) : list (list nat) :=
  match L with
  | [] => []
  | l :: L' => seq c (length l) :: enum_from (c + length l) L'
  end.

Fixpoint total {A} (L : list (list A)) : nat :=
  match L with [] => 0 | l :: L' => length l + total L' end.

Lemma total_concat : forall A (L : list (list A)), length (concat L) = total L.
Proof. induction L; simpl; auto. rewrite app_length, IHL. auto. Qed.

Lemma enum_from_length : forall A (L : list (list A)) c, length (enum_from c L) = length L.
Proof. induction L; simpl; auto. Qed.

Lemma concat_enum_from : forall A (L : list (list A)) c,
  concat (enum_from c L) = seq c (total L).
Proof.
  induction L; simpl; intros; auto. rewrite IHL.
  now rewrite <- seq_app.
Qed.

Lemma enum_from_app : forall A (L L' : list (list A)) c,
  enum_from c (L ++ L') = enum_from c L ++ enum_from (c + total L) L'.
Proof.
  induction L; simpl; intros.
  - now rewrite Nat.add_0_r.
  - f_equal. rewrite IHL. now rewrite Nat.add_assoc.
Qed.

Lemma enum_from_nth : forall A (L : list (list A)) c k, k < length L ->
  nth k (enum_from c L) [] = seq (c + total (firstn k L)) (length (nth k L [])).
Proof.
  induction L; simpl; intros c k H; [lia|].
  destruct k; simpl; auto.
  rewrite IHL by lia. f_equal; lia.
Qed.

Lemma enum_from_ext : forall A B (L : list (list A)) (L' : list (list B)) c,
  map (@length A) L = map (@length B) L' -> enum_from c L = enum_from c L'.
Proof.
  induction L; destruct L'; simpl; intros; auto; try discriminate.
  injection H as H1 H2. rewrite H1. f_equal. auto.
Qed.

(** ** Misc *)
Lemma filter_NoDup : forall A (f : A -> bool) l, NoDup l -> NoDup (filter f l).
Proof. intros; apply NoDup_filter; auto. Qed.

Lemma in_concat_nth : forall A (L : list (list A)) k x, In x (nth k L []) -> In x (concat L).
Proof.
  induction L; intros [|k] x H; simpl in *; try contradiction; apply in_or_app; eauto.
Qed.

Lemma NoDup_app_inv : forall A (l l' : list A), NoDup (l ++ l') ->
  NoDup l /\ NoDup l' /\ (forall x, In x l -> In x l' -> False).
Proof.
  induction l; simpl; intros l' H.
  - repeat split; auto. constructor.
  - inversion H; subst. destruct (IHl _ H3) as (A1 & A2 & A3). repeat split; auto.
    + constructor; auto. intro; apply H2; apply in_or_app; auto.
    + intros x [->|H4] H5; eauto. apply H2, in_or_app; auto.
Qed.

Lemma NoDup_app_intro : forall A (l l' : list A), NoDup l -> NoDup l' ->
  (forall x, In x l -> In x l' -> False) -> NoDup (l ++ l').
Proof.
  induction l; simpl; intros l' H1 H2 H3; auto. inversion H1; subst.
  constructor.
  - rewrite in_app_iff. intros [H|H]; eauto.
  - apply IHl; eauto.
Qed.

Lemma NoDup_concat_disjoint : forall A (L : list (list A)) a b x,
  NoDup (concat L) -> In x (nth a L []) -> In x (nth b L []) -> a = b.
Proof.
  induction L as [|l L IH]; intros a b x HN Ha Hb.
  - destruct a; simpl in Ha; contradiction.
  - simpl in HN. destruct (NoDup_app_inv _ _ HN) as (_ & HN' & D).
    destruct a, b; simpl in *; auto.
    + exfalso; eapply D; eauto using in_concat_nth.
    + exfalso; eapply D; eauto using in_concat_nth.
    + f_equal. eapply IH; eauto.
Qed.

Lemma nth_of_nth_error : forall A (l : list A) k d x, nth_error l k = Some x -> nth k l d = x.
Proof. intros; now apply nth_error_nth. Qed.

Lemma nth_error_of_nth : forall A (l : list A) k d, k < length l -> nth_error l k = Some (nth k l d).
Proof. intros. now apply nth_error_nth'. Qed.
