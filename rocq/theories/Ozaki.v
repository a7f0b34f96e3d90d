(** Ozaki(N): qmeq/specfunc/specfunc.py 795-829.  Real numbers in place of floats; scipy's eigh_tridiagonal is a parameter. *)
From Coq Require Import Reals List Arith.
Import ListNotations.
Local Open Scope R_scope.

(** 812-815 *)
Definition off (n : nat) : R := 1 / (2 * sqrt ((2 * INR n - 1) * (2 * INR n + 1))).
Definition Bvec (N : nat) : list R := map off (seq 1 (N - 1)).

Section Model.
(** [eigh d e] = (b, v): eigenvalues b[i] and v[k, i], component k of eigenvector i *)
Variable eigh : list R -> list R -> (nat -> R) * (nat -> nat -> R).

Fixpoint upd {A} (i : nat) (a : A) (l : list A) : list A :=
  match l, i with [], _ => [] | _ :: t, O => a :: t | x :: t, S j => x :: upd j a t end.
Definition row (b : nat -> R) (v : nat -> nat -> R) (i : nat) : R * R := (b i, v 0%nat i ^ 2 / (4 * b i ^ 2)).
(** 818-828: [None] is the IndexError of a store behind the last row *)
Definition store (b : nat -> R) (v : nat -> nat -> R) (st : option (nat * list (R * R))) (i : nat) : option (nat * list (R * R)) :=
  match st with
  | None => None
  | Some (count, A) =>
    if Rlt_dec 0 (b i) then (if (count <? length A)%nat then Some (S count, upd count (row b v i) A) else None) else st
  end.
Definition ozaki (N : nat) : option (list (R * R)) :=
  let r := eigh (repeat 0 N) (Bvec N) in
  option_map snd (fold_left (store (fst r) (snd r)) (seq 0 N) (Some (0%nat, repeat (0, 0) (N / 2)))).
End Model.
