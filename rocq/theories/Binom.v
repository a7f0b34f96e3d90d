(** Binomial coefficients, counting of occupation lists, unimodality, Vandermonde. *)
From Coq Require Import List Arith Lia Bool Permutation Factorial.
From Verif Require Import Base Bits.
Import ListNotations.
Open Scope nat_scope.

Fixpoint binom (n k : nat) : nat :=
  match n, k with
  | _, 0 => 1
  | 0, S _ => 0
  | S n', S k' => binom n' k' + binom n' (S k')
  end.

Lemma binom_0_r : forall n, binom n 0 = 1.
Proof. destruct n; reflexivity. Qed.

Lemma binom_pascal : forall n k, binom (S n) (S k) = binom n k + binom n (S k).
Proof. reflexivity. Qed.

Lemma binom_gt : forall n k, n < k -> binom n k = 0.
Proof.
  induction n; destruct k; intros; try lia; auto.
  rewrite binom_pascal, !IHn by lia. auto.
Qed.

Lemma binom_nn : forall n, binom n n = 1.
Proof. induction n; auto. rewrite binom_pascal, IHn, binom_gt by lia. auto. Qed.

Lemma binom_absorb : forall n k, (k + 1) * binom n (S k) + k * binom n k = n * binom n k.
Proof.
  induction n; intros k.
  - destruct k; simpl; lia.
  - destruct k.
    + rewrite binom_pascal, !binom_0_r. specialize (IHn 0). rewrite binom_0_r in IHn. lia.
    + rewrite (binom_pascal n (S k)), (binom_pascal n k).
      pose proof (IHn k) as H1. pose proof (IHn (S k)) as H2. nia.
Qed.

Lemma binom_unimodal : forall h u d, u <= d -> d < h + 1 ->
  binom h u * binom h (S d) <= binom h (S u) * binom h d.
Proof.
  intros h u d H Hd. pose proof (binom_absorb h u) as Hu. pose proof (binom_absorb h d) as Hv.
  assert (Eu : (u + 1) * binom h (S u) = (h - u) * binom h u).
  { destruct (Nat.le_gt_cases u h); [nia|]. rewrite !binom_gt by lia. lia. }
  assert (Ed : (d + 1) * binom h (S d) = (h - d) * binom h d).
  { destruct (Nat.le_gt_cases d h); [nia|]. rewrite !binom_gt by lia. lia. }
  assert (HH : (u + 1) * (d + 1) * (binom h u * binom h (S d))
               <= (u + 1) * (d + 1) * (binom h (S u) * binom h d)).
  { replace ((u + 1) * (d + 1) * (binom h u * binom h (S d)))
      with ((u + 1) * binom h u * ((d + 1) * binom h (S d))) by ring.
    replace ((u + 1) * (d + 1) * (binom h (S u) * binom h d))
      with (((u + 1) * binom h (S u)) * ((d + 1) * binom h d)) by ring.
    rewrite Eu, Ed.
    replace ((u + 1) * binom h u * ((h - d) * binom h d))
      with (((u + 1) * (h - d)) * (binom h u * binom h d)) by ring.
    replace ((h - u) * binom h u * ((d + 1) * binom h d))
      with (((h - u) * (d + 1)) * (binom h u * binom h d)) by ring.
    apply Nat.mul_le_mono_r. apply Nat.le_trans with ((d + 1) * (h - d)).
    - apply Nat.mul_le_mono; lia.
    - rewrite Nat.mul_comm. apply Nat.mul_le_mono; lia. }
  assert (0 < (u + 1) * (d + 1)) by nia.
  eapply Nat.mul_le_mono_pos_l; eauto.
Qed.

Lemma binom_sym : forall n k, k <= n -> binom n k = binom n (n - k).
Proof.
  induction n; intros k Hk.
  - replace k with 0 by lia. reflexivity.
  - destruct k.
    + rewrite Nat.sub_0_r, binom_0_r, binom_nn. auto.
    + replace (S n - S k) with (n - k) by lia. rewrite binom_pascal.
      destruct (Nat.eq_dec k n).
      * subst. rewrite Nat.sub_diag, binom_nn, binom_gt, binom_0_r by lia. auto.
      * replace (n - k) with (S (n - S k)) by lia. rewrite binom_pascal.
        rewrite (IHn k) by lia. rewrite (IHn (S k)) by lia.
        replace (n - k) with (S (n - S k)) by lia. lia.
Qed.

(** All occupation lists of length n. *)
Fixpoint allbits (n : nat) : list (list bool) :=
  match n with
  | 0 => [[]]
  | S n' => map (cons false) (allbits n') ++ map (cons true) (allbits n')
  end.

Lemma allbits_in : forall n s, In s (allbits n) <-> length s = n.
Proof.
  induction n; simpl; intros s.
  - split.
    + intros [<-|[]]. reflexivity.
    + destruct s; simpl; auto. discriminate.
  - rewrite in_app_iff, !in_map_iff. split.
    + intros [(t & <- & H)|(t & <- & H)]; apply IHn in H; simpl; lia.
    + destruct s as [|b s]; simpl; intros H; [discriminate|].
      destruct b; [right|left]; exists s; split; auto; apply IHn; lia.
Qed.

Lemma NoDup_map_inj : forall A B (f : A -> B) l,
  (forall x y, In x l -> In y l -> f x = f y -> x = y) -> NoDup l -> NoDup (map f l).
Proof.
  induction l; simpl; intros Hf HN; [constructor|]. inversion HN; subst. constructor.
  - rewrite in_map_iff. intros (x & E & Hx). apply H1.
    rewrite <- (Hf x a); auto.
  - apply IHl; auto.
Qed.

Lemma allbits_nodup : forall n, NoDup (allbits n).
Proof.
  induction n; simpl.
  - repeat constructor. auto.
  - apply NoDup_app_intro.
    + apply NoDup_map_inj; auto. intros; congruence.
    + apply NoDup_map_inj; auto. intros; congruence.
    + intros x H1 H2. apply in_map_iff in H1, H2.
      destruct H1 as (a & <- & _). destruct H2 as (b & E & _). discriminate.
Qed.

Lemma bits_allbits : forall n, Permutation (map (bits n) (seq 0 (2 ^ n))) (allbits n).
Proof.
  intros n. apply NoDup_Permutation.
  - apply NoDup_map_inj; [|apply seq_NoDup].
    intros x y Hx Hy E. apply in_seq in Hx, Hy. apply (bits_inj n); auto; lia.
  - apply allbits_nodup.
  - intros s. rewrite allbits_in, in_map_iff. split.
    + intros (k & <- & _). apply bits_length.
    + intros H. exists (binarylist_to_integer s). split.
      * rewrite <- H. apply bits_of_bin.
      * apply in_seq. pose proof (b2i_bound s). rewrite H in *. lia.
Qed.

Lemma allbits_app : forall a b,
  allbits (a + b) = flat_map (fun x => map (app x) (allbits b)) (allbits a).
Proof.
  induction a; simpl; intros b.
  - rewrite app_nil_r. rewrite map_id. auto.
  - rewrite flat_map_app. rewrite IHa. f_equal.
    + rewrite flat_map_concat_map, concat_map, !flat_map_concat_map, !map_map.
      f_equal. apply map_ext. intros x. rewrite map_map. reflexivity.
    + rewrite flat_map_concat_map, concat_map, !flat_map_concat_map, !map_map.
      f_equal. apply map_ext. intros x. rewrite map_map. reflexivity.
Qed.

Definition count {A} (f : A -> bool) (l : list A) : nat := length (filter f l).

Lemma count_app : forall A (f : A -> bool) l l', count f (l ++ l') = count f l + count f l'.
Proof. intros. unfold count. now rewrite filter_app, app_length. Qed.

Lemma count_map : forall A B (f : B -> bool) (g : A -> B) l,
  count f (map g l) = count (fun x => f (g x)) l.
Proof.
  unfold count. induction l; simpl; auto. destruct (f (g a)); simpl; auto.
Qed.

Lemma count_ext_in : forall A (f g : A -> bool) l, (forall x, In x l -> f x = g x) ->
  count f l = count g l.
Proof. intros. unfold count. f_equal. apply filter_ext_in. auto. Qed.

Lemma count_perm : forall A (f : A -> bool) l l', Permutation l l' -> count f l = count f l'.
Proof.
  unfold count. induction 1; simpl; auto; try congruence.
  - destruct (f x); simpl; auto.
  - destruct (f x), (f y); auto.
Qed.

Lemma count_false : forall A (l : list A), count (fun _ => false) l = 0.
Proof. induction l; auto. Qed.

Lemma count_allbits : forall n k, count (fun s => charge_of s =? k) (allbits n) = binom n k.
Proof.
  induction n; intros k.
  - destruct k; reflexivity.
  - cbn [allbits]. rewrite count_app, !count_map.
    rewrite (count_ext_in _ (fun x => charge_of (false :: x) =? k) (fun s => charge_of s =? k)) by reflexivity.
    rewrite IHn. destruct k.
    + rewrite (count_ext_in _ _ (fun _ => false)) by (intros; reflexivity).
      rewrite count_false, !binom_0_r. auto.
    + rewrite (count_ext_in _ _ (fun s => charge_of s =? k)) by (intros; reflexivity).
      rewrite IHn, binom_pascal. lia.
Qed.

(** Counting lists split into two parts of length [a] and [b] by the two charges. *)
Lemma count_flat_map_prod : forall a b u d l,
  (forall x, In x l -> length x = a) ->
  count (fun s => ((charge_of (firstn a s) =? u) && (charge_of (skipn a s) =? d))%bool)
        (flat_map (fun x => map (app x) (allbits b)) l)
  = count (fun s => charge_of s =? u) l * binom b d.
Proof.
  induction l as [|x l IH]; intros Hl; auto.
  cbn [flat_map]. rewrite count_app, count_map, IH by (intros; apply Hl; simpl; auto).
  rewrite (count_ext_in _ _ (fun s => ((charge_of x =? u) && (charge_of s =? d))%bool)).
  - unfold count at 3. simpl filter. destruct (Nat.eqb_spec (charge_of x) u); simpl.
    + rewrite <- (count_allbits b d). unfold count. lia.
    + rewrite count_false. auto.
  - intros s Hs. assert (E : length x = a) by (apply Hl; simpl; auto).
    rewrite <- E, firstn_app, skipn_app, Nat.sub_diag. simpl.
    rewrite firstn_all, skipn_all, app_nil_r. reflexivity.
Qed.

Lemma count_updn : forall a b u d,
  count (fun s => ((charge_of (firstn a s) =? u) && (charge_of (skipn a s) =? d))%bool)
        (allbits (a + b)) = binom a u * binom b d.
Proof.
  intros. rewrite allbits_app, count_flat_map_prod.
  - now rewrite count_allbits.
  - intros x Hx. now apply allbits_in.
Qed.

(** ** Sums and Vandermonde *)
Definition sum_upto (n : nat) (f : nat -> nat) : nat := sumn (map f (seq 0 n)).

Lemma sum_upto_S : forall n f, sum_upto (S n) f = sum_upto n f + f n.
Proof. intros. unfold sum_upto. rewrite seq_S, map_app, sumn_app. simpl. lia. Qed.

Lemma sum_upto_ext : forall n f g, (forall k, k < n -> f k = g k) -> sum_upto n f = sum_upto n g.
Proof.
  intros. unfold sum_upto. f_equal. apply map_ext_in. intros a Ha. apply in_seq in Ha. apply H. lia.
Qed.

Lemma sum_upto_plus : forall n f g, sum_upto n (fun k => f k + g k) = sum_upto n f + sum_upto n g.
Proof. induction n; intros; auto. rewrite !sum_upto_S, IHn. lia. Qed.

Lemma sum_upto_first : forall n f, sum_upto (S n) f = f 0 + sum_upto n (fun k => f (S k)).
Proof.
  induction n; intros; auto. rewrite sum_upto_S, IHn, (sum_upto_S n). lia.
Qed.

Lemma vandermonde : forall a b r, sum_upto (S r) (fun k => binom a k * binom b (r - k)) = binom (a + b) r.
Proof.
  induction a; intros b r.
  - rewrite sum_upto_first. simpl binom at 1. rewrite Nat.sub_0_r.
    assert (E : sum_upto r (fun k => binom 0 (S k) * binom b (r - S k)) = 0).
    { clear. generalize (fun k => binom b (r - S k)). intros f. simpl.
      induction r; auto. rewrite sum_upto_S, IHr. auto. }
    rewrite E. simpl. lia.
  - destruct r.
    + rewrite sum_upto_S. unfold sum_upto. cbn [seq map sumn fold_right]. rewrite Nat.sub_0_r, !binom_0_r. lia.
    + rewrite sum_upto_first. rewrite binom_0_r, Nat.sub_0_r.
      change (S a + b) with (S (a + b)). rewrite (binom_pascal (a + b)).
      rewrite <- (IHa b r), <- (IHa b (S r)).
      rewrite (sum_upto_first (S r)). rewrite binom_0_r, Nat.sub_0_r.
      rewrite (sum_upto_ext _ (fun k => binom (S a) (S k) * binom b (S r - S k))
               (fun k => binom a k * binom b (r - k) + binom a (S k) * binom b (S r - S k))).
      * rewrite sum_upto_plus. lia.
      * intros k Hk. rewrite binom_pascal. simpl (S r - S k). lia.
Qed.

(** factorials *)
Lemma binom_fact : forall n k, k <= n -> binom n k * (fact k * fact (n - k)) = fact n.
Proof.
  induction n; intros k Hk.
  - replace k with 0 by lia. reflexivity.
  - destruct k.
    + rewrite binom_0_r, Nat.sub_0_r. simpl fact at 1. lia.
    + replace (S n - S k) with (n - k) by lia. rewrite binom_pascal.
      destruct (Nat.eq_dec k n).
      * subst. rewrite Nat.sub_diag, binom_nn, binom_gt by lia. simpl (fact 0). lia.
      * pose proof (IHn k) as H1. pose proof (IHn (S k)) as H2.
        specialize (H1 ltac:(lia)). specialize (H2 ltac:(lia)).
        replace (n - k) with (S (n - S k)) in * by lia.
        change (fact (S (n - S k))) with (S (n - S k) * fact (n - S k)) in *.
        change (fact (S k)) with (S k * fact k) in *.
        change (fact (S n)) with (S n * fact n).
        replace ((binom n k + binom n (S k)) *
          (S k * fact k * (S (n - S k) * fact (n - S k)))) with
          (S k * (binom n k * (fact k * (S (n - S k) * fact (n - S k)))) +
           S (n - S k) * (binom n (S k) * (S k * fact k * fact (n - S k)))) by ring.
        rewrite H1, H2. nia.
Qed.

Lemma central_fact : forall n, fact (2 * n) = binom (2 * n) n * (fact n * fact n).
Proof.
  intros. rewrite <- (binom_fact (2 * n) n) by lia. replace (2 * n - n) with n by lia. reflexivity.
Qed.
