(** Specification: exchanging the spins.  The first nss levels carry spin up, the next nss levels spin down
    (indexing.py 391-396).  [xch] maps the occupation u ++ d to d ++ u with the sign (-1)^(|u||d|) that keeps the order
    of the creation operators; it turns the operators of level i into those of the level with the other spin. *)
From Coq Require Import ZArith List Arith Lia Bool.
From Verif Require Import Base CRing Fock.
Import ListNotations.
Open Scope nat_scope.

(** the level with the other spin *)
Definition flip (nss i : nat) : nat := if Nat.ltb i nss then i + nss else i - nss.
Lemma flip_lt : forall nss i, i < 2 * nss -> flip nss i < 2 * nss.
Proof. intros nss i H. unfold flip. destruct (Nat.ltb_spec i nss); lia. Qed.
Lemma flip_flip : forall nss i, i < 2 * nss -> flip nss (flip nss i) = i.
Proof. intros nss i H. unfold flip. destruct (Nat.ltb_spec i nss); [destruct (Nat.ltb_spec (i + nss) nss)|destruct (Nat.ltb_spec (i - nss) nss)]; lia. Qed.

Section Swap.
Variable K : CRing.
Add Ring Kswap : (rth K).
Local Open Scope rng_scope.
Variable nss : nat.
Definition xch : op K := fun f s =>
  sgn K (ones (firstn nss s) * ones (skipn nss s)) * f (skipn nss s ++ firstn nss s).

Lemma ones_app : forall a b, ones (a ++ b) = (ones a + ones b)%nat.
Proof. induction a as [|x a IH]; intros b; simpl; auto. rewrite IH. lia. Qed.
Lemma sgn_mul_S : forall a b, sgn K (a * S b) = sgn K a * sgn K (a * b).
Proof. intros a b. rewrite Nat.mul_succ_r, sgn_add. ring. Qed.

Lemma split_half : forall s : list bool, length s = (2 * nss)%nat ->
  exists u d, s = u ++ d /\ length u = nss /\ length d = nss.
Proof.
  intros s H. exists (firstn nss s), (skipn nss s). rewrite firstn_skipn, firstn_length, skipn_length. repeat split; lia.
Qed.
Lemma firstn_half : forall u d : list bool, length u = nss -> firstn nss (u ++ d) = u.
Proof. intros u d H. rewrite firstn_app, H, Nat.sub_diag, firstn_O, app_nil_r. apply firstn_all2. lia. Qed.
Lemma skipn_half : forall u d : list bool, length u = nss -> skipn nss (u ++ d) = d.
Proof. intros u d H. rewrite skipn_app, H, Nat.sub_diag. rewrite skipn_all2 by lia. reflexivity. Qed.
Lemma xch_app : forall f u d, length u = nss -> length d = nss -> xch f (u ++ d) = sgn K (ones u * ones d) * f (d ++ u).
Proof. intros. unfold xch. now rewrite firstn_half, skipn_half. Qed.

Lemma put_app_l : forall i b (u d : list bool), (i < length u)%nat -> put i b (u ++ d) = put i b u ++ d.
Proof.
  unfold put, set_nth. induction i; intros b [|x u] d H; simpl in *; try lia; auto. f_equal. apply IHi. lia.
Qed.
Lemma put_app_r : forall i b (u d : list bool), put (i + length u) b (u ++ d) = u ++ put i b d.
Proof.
  intros i b u d. unfold put, set_nth. induction u as [|x u IH]; [now rewrite Nat.add_0_r|].
  cbn [length app]. rewrite Nat.add_succ_r. simpl. f_equal. exact IH.
Qed.
Lemma occ_app_l : forall i (u d : list bool), (i < length u)%nat -> occ_at i (u ++ d) = occ_at i u.
Proof. intros. unfold occ_at. now apply app_nth1. Qed.
Lemma occ_app_r : forall i (u d : list bool), occ_at (i + length u) (u ++ d) = occ_at i d.
Proof. intros. unfold occ_at. rewrite app_nth2 by lia. f_equal. lia. Qed.
Lemma jw_app_l : forall i u d, (i <= length u)%nat -> jw K i (u ++ d) = jw K i u.
Proof. intros i u d H. unfold jw. rewrite firstn_app. replace (i - length u)%nat with 0%nat by lia. now rewrite firstn_O, app_nil_r. Qed.
Lemma jw_app_r : forall i u d, jw K (i + length u) (u ++ d) = sgn K (ones u) * jw K i d.
Proof.
  intros i u d. unfold jw. rewrite firstn_app. rewrite firstn_all2 by lia. replace (i + length u - length u)%nat with i by lia.
  now rewrite ones_app, sgn_add.
Qed.

Lemma sq_sgn : forall a, sgn K a * sgn K a = 1.
Proof. intros. apply sgn_sq. Qed.

(** the operators of a level become those of the other spin *)
Theorem xch_ann : forall i f s, (i < 2 * nss)%nat -> length s = (2 * nss)%nat -> xch (ann K i f) s = ann K (flip nss i) (xch f) s.
Proof.
  intros i f s Hi Hs. destruct (split_half s Hs) as (u & d & -> & Lu & Ld). rewrite xch_app by auto.
  unfold flip. destruct (Nat.ltb_spec i nss) as [H|H].
  - replace (i + nss)%nat with (i + length u)%nat by lia. unfold ann. rewrite occ_app_l by lia. rewrite occ_app_r.
    destruct (occ_at i d) eqn:E; [ring|]. rewrite jw_app_l by lia. rewrite put_app_l by lia.
    rewrite jw_app_r, put_app_r. rewrite xch_app by (auto; now rewrite put_length).
    rewrite ones_put_true by (auto; lia). rewrite sgn_mul_S.
    transitivity (sgn K (ones u) * sgn K (ones u) * (sgn K (ones u * ones d) * (jw K i d * f (put i true d ++ u)))); [rewrite sq_sgn|]; ring.
  - assert (Ei : i = (i - nss + length d)%nat) by lia. set (j := (i - nss)%nat) in *. rewrite Ei at 1.
    unfold ann. rewrite occ_app_r. rewrite occ_app_l by lia. destruct (occ_at j u) eqn:E; [ring|].
    rewrite put_app_r, jw_app_r. rewrite put_app_l by lia. rewrite jw_app_l by lia. rewrite xch_app by (auto; now rewrite put_length).
    rewrite ones_put_true by (auto; lia). cbn [Nat.mul]. rewrite sgn_add. ring.
Qed.
Theorem xch_cre : forall i f s, (i < 2 * nss)%nat -> length s = (2 * nss)%nat -> xch (cre K i f) s = cre K (flip nss i) (xch f) s.
Proof.
  intros i f s Hi Hs. destruct (split_half s Hs) as (u & d & -> & Lu & Ld). rewrite xch_app by auto.
  unfold flip. destruct (Nat.ltb_spec i nss) as [H|H].
  - replace (i + nss)%nat with (i + length u)%nat by lia. unfold cre. rewrite occ_app_l by lia. rewrite occ_app_r.
    destruct (occ_at i d) eqn:E; [|ring]. rewrite jw_app_l by lia. rewrite put_app_l by lia.
    rewrite jw_app_r, put_app_r. rewrite xch_app by (auto; now rewrite put_length).
    assert (Q := ones_put_false i d ltac:(lia) E). rewrite <- Q at 1. rewrite sgn_mul_S. ring.
  - assert (Ei : i = (i - nss + length d)%nat) by lia. set (j := (i - nss)%nat) in *. rewrite Ei at 1.
    unfold cre. rewrite occ_app_r. rewrite occ_app_l by lia. destruct (occ_at j u) eqn:E; [|ring].
    rewrite put_app_r, jw_app_r. rewrite put_app_l by lia. rewrite jw_app_l by lia. rewrite xch_app by (auto; now rewrite put_length).
    assert (Q := ones_put_false j u ltac:(lia) E). rewrite <- Q at 1. cbn [Nat.mul]. rewrite sgn_add.
    transitivity (sgn K (ones d) * sgn K (ones d) * (sgn K (ones (put j false u) * ones d) * (jw K j u * f (d ++ put j false u)))); [ring|]. rewrite sq_sgn. ring.
Qed.
(** exchanging twice changes nothing; the empty state keeps its sign *)
Theorem xch_xch : forall f s, length s = (2 * nss)%nat -> xch (xch f) s = f s.
Proof.
  intros f s Hs. destruct (split_half s Hs) as (u & d & -> & Lu & Ld). rewrite !xch_app by auto. rewrite (Nat.mul_comm (ones d)).
  transitivity (sgn K (ones u * ones d) * sgn K (ones u * ones d) * f (u ++ d)); [ring|]. rewrite sq_sgn. ring.
Qed.
Lemma xch_ext : forall f g s, length s = (2 * nss)%nat -> (forall t, length t = (2 * nss)%nat -> f t = g t) -> xch f s = xch g s.
Proof. intros f g s Hs H. unfold xch. rewrite H; auto. rewrite app_length, skipn_length, firstn_length. lia. Qed.

(** [b] is [a] with the spins exchanged *)
Definition turns (a b : op K) : Prop := forall f s, length s = (2 * nss)%nat -> xch (a f) s = b (xch f) s.
Definition same_op (a b : op K) : Prop := forall f s, length s = (2 * nss)%nat -> a f s = b f s.
Definition local (a : op K) : Prop := forall f g, (forall t, length t = (2 * nss)%nat -> f t = g t) -> forall s, length s = (2 * nss)%nat -> a f s = a g s.
Lemma local_ann : forall i, local (ann K i).
Proof. intros i f g H s Hs. apply ann_ext. intros. apply H. congruence. Qed.
Lemma local_cre : forall i, local (cre K i).
Proof. intros i f g H s Hs. apply cre_ext. intros. apply H. congruence. Qed.
Lemma local_comp : forall a b, local a -> local b -> local (ocomp K a b).
Proof. intros a b A B f g H. unfold ocomp. apply A. now apply B. Qed.
Lemma turns_ann : forall i, (i < 2 * nss)%nat -> turns (ann K i) (ann K (flip nss i)).
Proof. intros i H f s Hs. now apply xch_ann. Qed.
Lemma turns_cre : forall i, (i < 2 * nss)%nat -> turns (cre K i) (cre K (flip nss i)).
Proof. intros i H f s Hs. now apply xch_cre. Qed.
Lemma turns_comp : forall a a' b b', local a' -> turns a a' -> turns b b' -> turns (ocomp K a b) (ocomp K a' b').
Proof. intros a a' b b' L A B f s Hs. unfold ocomp. rewrite A by auto. apply L; auto. Qed.
Lemma turns_plus : forall a a' b b', turns a a' -> turns b b' -> turns (oplus K a b) (oplus K a' b').
Proof. intros a a' b b' A B f s Hs. unfold oplus. rewrite <- A, <- B by auto. unfold xch. ring. Qed.
Lemma turns_scale : forall c a a', turns a a' -> turns (oscale K c a) (oscale K c a').
Proof. intros c a a' A f s Hs. unfold oscale. rewrite <- A by auto. unfold xch. ring. Qed.
Lemma turns_zero : turns (ozero K) (ozero K).
Proof. intros f s Hs. unfold xch, ozero. ring. Qed.
Lemma turns_sum : forall A (F G : A -> op K) l, (forall x, In x l -> turns (F x) (G x)) -> turns (osum K F l) (osum K G l).
Proof.
  intros A F G. induction l as [|x l IH]; intros H; [apply turns_zero|]. cbn [osum]. apply turns_plus; [apply H; now left|].
  apply IH. intros y Hy. apply H. now right.
Qed.
Lemma turns_same : forall a b b', turns a b -> same_op b b' -> turns a b'.
Proof. intros a b b' A B f s Hs. rewrite A by auto. now apply B. Qed.
End Swap.

(** Non-vacuity: two orbitals; |up0> becomes |down0>, |up0 down1> becomes -|up1 down0>. *)
Example xch_one : mel ZRing (xch ZRing 2) [false; false; true; false] [true; false; false; false] = 1%Z.
Proof. reflexivity. Qed.
Example xch_two : mel ZRing (xch ZRing 2) [false; true; true; false] [true; false; false; true] = (-1)%Z.
Proof. reflexivity. Qed.
