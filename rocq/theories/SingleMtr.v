(** Single-particle matrices: make_tleads_mtr (leadstun.py 219-248) and make_hsingle_mtr (qdot.py 544-573), mtype=complex.
    A list of (i, j, amplitude) and a dictionary are both a list of ((i, j), amplitude), a dictionary with distinct keys.
    Labels are natural numbers (numpy would accept negative labels down to minus the size); labels too large raise. *)
From Coq Require Import List Arith Lia Bool.
From Verif Require Import Base CRing Operators.
Import ListNotations.
Open Scope nat_scope.

Section Model.
Variable K : CRing.
Local Notation C := (Cx K).
Definition in_shape (m n : nat) (k : nat * nat) : bool := (fst k <? m) && (snd k <? n).
(** 239-248 *)
Definition make_tleads_mtr (nleads nsingle : nat) (tleads : list ((nat * nat) * C)) : option (nat * nat -> C) :=
  if forallb (fun e => in_shape nleads nsingle (fst e)) tleads then Some (run_updates eq2 tleads zeros) else None.
(** 563-572: the second update for j1 != j2 *)
Definition hsingle_updates (e : (nat * nat) * C) : list ((nat * nat) * C) :=
  let '((j1, j2), hop) := e in ((j1, j2), hop) :: (if j1 =? j2 then [] else [((j2, j1), conj hop)]).
Definition make_hsingle_mtr (nsingle : nat) (hsingle : list ((nat * nat) * C)) : option (nat * nat -> C) :=
  if forallb (fun e => in_shape nsingle nsingle (fst e)) hsingle then Some (run_updates eq2 (flat_map hsingle_updates hsingle) zeros) else None.
End Model.
