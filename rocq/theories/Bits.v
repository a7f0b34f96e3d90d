(** Occupation lists and Lin indices: qmeq/indexing.py lines 16-53.
    A digit 0/1 is modelled by a bool; lists are most significant digit first. *)
From Coq Require Import List Arith Lia Bool.
From Verif Require Import Base.
Import ListNotations.

Definition b2n (b : bool) : nat := if b then 1 else 0.

(** Python's [sum(state)] for a list of digits. *)
Definition charge_of (s : list bool) : nat := sumn (map b2n s).

(** indexing.py 16-30 binarylist_to_integer: [int(''.join(map(str, lst)), 2)] (non-empty lists;
    the empty string raises ValueError in Python, here it gives 0 and is never used). *)
Definition binarylist_to_integer (lst : list bool) : nat :=
  fold_left (fun acc b => 2 * acc + b2n b) lst 0.

(** Minimal binary digits of a number, as produced by [format(num, 'b')]; 0 gives "0". *)
Fixpoint bin_digits (fuel num : nat) : list bool :=
  match fuel with
  | 0 => [Nat.odd num]
  | S f => if num <=? 1 then [Nat.odd num] else bin_digits f (Nat.div2 num) ++ [Nat.odd num]
  end.

(** indexing.py 33-53 integer_to_binarylist: [format(num, '0<binlen>b')], zero padded on the left
    to at least [binlen] digits.  The fuel [num] always suffices. *)
Definition integer_to_binarylist (num binlen : nat) : list bool :=
  let d := bin_digits num num in repeat false (binlen - length d) ++ d.

(** Specification: the [n] low-order binary digits. *)
Fixpoint bits (n num : nat) : list bool :=
  match n with
  | 0 => []
  | S n' => bits n' (Nat.div2 num) ++ [Nat.odd num]
  end.

Lemma bits_length : forall n k, length (bits n k) = n.
Proof. induction n; simpl; intros; auto. rewrite app_length, IHn; simpl; lia. Qed.

Lemma b2i_app : forall l acc b,
  fold_left (fun acc b => 2 * acc + b2n b) (l ++ [b]) acc
  = 2 * fold_left (fun acc b => 2 * acc + b2n b) l acc + b2n b.
Proof. intros. rewrite fold_left_app. reflexivity. Qed.

Lemma div2_odd_eq : forall k, k = 2 * Nat.div2 k + b2n (Nat.odd k).
Proof. intros. rewrite (Nat.div2_odd k) at 1. destruct (Nat.odd k); simpl; lia. Qed.

Lemma bin_of_bits : forall n k, k < 2 ^ n -> binarylist_to_integer (bits n k) = k.
Proof.
  unfold binarylist_to_integer.
  induction n; simpl bits; intros k Hk.
  - simpl in *. lia.
  - rewrite b2i_app. rewrite IHn.
    + symmetry. apply div2_odd_eq.
    + rewrite Nat.pow_succ_r' in Hk. pose proof (div2_odd_eq k) as E.
      destruct (Nat.odd k); simpl b2n in E; lia.
Qed.

Lemma b2i_bound : forall l, binarylist_to_integer l < 2 ^ length l.
Proof.
  intros l. induction l as [|b l IH] using rev_ind; [unfold binarylist_to_integer; simpl; lia|].
  unfold binarylist_to_integer in *. rewrite b2i_app.
  rewrite app_length, Nat.add_1_r, Nat.pow_succ_r'. destruct b; simpl b2n; lia.
Qed.

Lemma div2_2b : forall a b, Nat.div2 (2 * a + b2n b) = a.
Proof.
  intros. destruct b; simpl b2n.
  - rewrite Nat.add_1_r. apply Nat.div2_succ_double.
  - rewrite Nat.add_0_r. apply Nat.div2_double.
Qed.

Lemma odd_2b : forall a b, Nat.odd (2 * a + b2n b) = b.
Proof.
  intros. rewrite Nat.odd_add, Nat.odd_mul. simpl. destruct b; reflexivity.
Qed.

Lemma bits_of_bin : forall l, bits (length l) (binarylist_to_integer l) = l.
Proof.
  intros l. induction l as [|b l IH] using rev_ind; auto.
  rewrite app_length, Nat.add_1_r. simpl bits.
  unfold binarylist_to_integer in *. rewrite b2i_app, div2_2b, odd_2b, IH. reflexivity.
Qed.

Lemma bits_0 : forall n, bits n 0 = repeat false n.
Proof.
  induction n; simpl; auto. rewrite IHn. symmetry. apply repeat_cons.
Qed.

Lemma bits_small_pad : forall n k, k < 2 -> bits (S n) k = repeat false n ++ [Nat.odd k].
Proof.
  intros. simpl. f_equal.
  replace (Nat.div2 k) with 0 by (destruct k as [|[|]]; simpl; lia). apply bits_0.
Qed.

Lemma bin_digits_pad : forall fuel k n, k <= fuel -> 1 <= n -> k < 2 ^ n ->
  repeat false (n - length (bin_digits fuel k)) ++ bin_digits fuel k = bits n k
  /\ length (bin_digits fuel k) <= n.
Proof.
  induction fuel; intros k n Hf Hn Hk.
  - assert (k = 0) by lia; subst. simpl bin_digits.
    destruct n; [lia|]. rewrite bits_small_pad by lia. simpl length.
    replace (S n - 1) with n by lia. split; auto; lia.
  - cbn [bin_digits]. destruct (Nat.leb_spec k 1).
    + destruct n; [lia|]. rewrite bits_small_pad by lia. simpl length.
      replace (S n - 1) with n by lia. split; auto; lia.
    + destruct n as [|n]; [lia|].
      pose proof (div2_odd_eq k) as E. rewrite Nat.pow_succ_r' in Hk.
      assert (n <> 0). { intros ->. simpl in Hk. lia. }
      destruct (IHfuel (Nat.div2 k) n) as [A B].
      * destruct (Nat.odd k); simpl b2n in *; lia.
      * lia.
      * destruct (Nat.odd k); simpl b2n in *; lia.
      * rewrite app_length. simpl length. split; [|lia].
        simpl bits. rewrite <- A, <- app_assoc. f_equal. f_equal. lia.
Qed.

(** integer_to_binarylist agrees with the specification for numbers below 2^n. *)
Lemma itb_bits : forall n k, 1 <= n -> k < 2 ^ n -> integer_to_binarylist k n = bits n k.
Proof. intros. unfold integer_to_binarylist. apply bin_digits_pad; auto. Qed.

Lemma itb_b2i : forall l, l <> [] ->
  integer_to_binarylist (binarylist_to_integer l) (length l) = l.
Proof.
  intros. rewrite itb_bits.
  - apply bits_of_bin.
  - destruct l; simpl; [congruence|lia].
  - apply b2i_bound.
Qed.

Lemma b2i_itb : forall n k, 1 <= n -> k < 2 ^ n ->
  binarylist_to_integer (integer_to_binarylist k n) = k.
Proof. intros. rewrite itb_bits by auto. now apply bin_of_bits. Qed.

Lemma bits_inj : forall n a b, a < 2 ^ n -> b < 2 ^ n -> bits n a = bits n b -> a = b.
Proof. intros. rewrite <- (bin_of_bits n a), <- (bin_of_bits n b) by auto. congruence. Qed.

Lemma charge_of_app : forall a b, charge_of (a ++ b) = charge_of a + charge_of b.
Proof. intros. unfold charge_of. now rewrite map_app, sumn_app. Qed.

Lemma charge_of_le : forall s, charge_of s <= length s.
Proof.
  induction s as [|b s IH]; simpl; auto. unfold charge_of in *. simpl.
  destruct b; simpl; lia.
Qed.

Lemma pow2_pos : forall n, 0 < 2 ^ n.
Proof. intros. apply Nat.neq_0_lt_0. apply Nat.pow_nonzero. lia. Qed.

Example itb_ex : integer_to_binarylist 6 4 = [false; true; true; false].
Proof. reflexivity. Qed.
Example itb_ex0 : integer_to_binarylist 0 0 = [false].
Proof. reflexivity. Qed.
