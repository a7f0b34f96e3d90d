(** Model of the spin operators of qdot.py: operator_sm, operator_sp, operator_ssquare.

    The matrices have dtype int; entries are integers.  [None] is an exception.  The Python value 0 returned at the edge of
    the sz range is [SZero]; it is the integer 0, which numpy broadcasts in the sum of operator_ssquare.
    Addition of arrays of different shapes is taken to raise (broadcasting of one-row arrays is not modelled; it does not
    happen, by the theorems). *)
From Coq Require Import String ZArith List Arith Lia Bool.
From Verif Require Import Base Bits Indexing CRing Operators Rates.
Import ListNotations.
Open Scope nat_scope.
Local Notation length := List.length.

Inductive spinop := SZero | SMat (rows cols : nat) (m : nat -> nat -> Z).

(** qdot.py 256-260 and 301-305: [ind = target.index(si.get_ind(state2)); m[ind, j1] = v].
    get_ind gives None for a removed state; [target.index(None)] raises. *)
Definition flip_write (si : SI) (target : list nat) (j1 : nat) (state2 : list bool) (v : Z)
  : option (list ((nat * nat) * Z)) :=
  match get_ind si state2 with
  | Ind k => match index_of k target with Some ind => Some [((ind, j1), v)] | None => None end
  | _ => None
  end.

(** qdot.py 250-260: body of the loop over j2 in operator_sm *)
Definition sm_step (si : SI) (statesm : list nat) (j1 : nat) (state : list bool) (j2 : nat) : option (list ((nat * nat) * Z)) :=
  let dind := Nat.div2 (si_nsingle si) in
  match nth_error state j2 with
  | None => None
  | Some false => Some []
  | Some true =>
      match nth_error state (dind + j2) with
      | None => None
      | Some true => Some []
      | Some false =>
          let fsign := sgn ZRing (charge_of (firstn j2 state) + charge_of (firstn (dind + j2) state) + 1) in
          flip_write si statesm j1 (set_nth (dind + j2) true (set_nth j2 false state)) (2 * fsign)%Z
      end
  end.
(** qdot.py 295-305: body of the loop over j2 in operator_sp *)
Definition sp_step (si : SI) (statesp : list nat) (j1 : nat) (state : list bool) (j2 : nat) : option (list ((nat * nat) * Z)) :=
  let dind := Nat.div2 (si_nsingle si) in
  match nth_error state j2 with
  | None => None
  | Some true => Some []
  | Some false =>
      match nth_error state (dind + j2) with
      | None => None
      | Some false => Some []
      | Some true =>
          let fsign := sgn ZRing (charge_of (firstn j2 state) + charge_of (firstn (dind + j2) state)) in
          flip_write si statesp j1 (set_nth (dind + j2) false (set_nth j2 true state)) (2 * fsign)%Z
      end
  end.

(** qdot.py 245-261, 290-306: the two loops *)
Definition spin_matrix (si : SI) (states target : list nat)
           (step : nat -> list bool -> nat -> option (list ((nat * nat) * Z))) : option spinop :=
  match oconcat (fun j1 => match nth_error states j1 with
                           | None => None
                           | Some k => match get_state si k with
                                       | None => None
                                       | Some state => oconcat (step j1 state) (seq 0 (Nat.div2 (si_nsingle si)))
                                       end
                           end) (seq 0 (length states)) with
  | None => None
  | Some us => Some (SMat (length target) (length states) (fun p q => run_writes eq2 us (fun _ => 0%Z) (p, q)))
  end.

(** qdot.py 219-261 operator_sm; szmin = -min(charge, nsingle-charge) is [- szmax] *)
Definition operator_sm (charge : nat) (sz : Z) (si : SI) : option spinop :=
  if (sz - 2 <? - szmax charge (si_nsingle si))%Z then Some SZero
  else match get_lst si charge (Some sz) None, get_lst si charge (Some (sz - 2)%Z) None with
       | Some states, Some statesm => spin_matrix si states statesm (sm_step si statesm)
       | _, _ => None
       end.
(** qdot.py 264-306 operator_sp *)
Definition operator_sp (charge : nat) (sz : Z) (si : SI) : option spinop :=
  if (sz + 2 >? szmax charge (si_nsingle si))%Z then Some SZero
  else match get_lst si charge (Some sz) None, get_lst si charge (Some (sz + 2)%Z) None with
       | Some states, Some statesp => spin_matrix si states statesp (sp_step si statesp)
       | _, _ => None
       end.

(** np.dot of two arrays; of a number with an array it is the product, here with the number 0 *)
Definition sdot (a b : option spinop) : option spinop :=
  match a, b with
  | Some SZero, Some SZero => Some SZero
  | Some SZero, Some (SMat r c _) | Some (SMat r c _), Some SZero => Some (SMat r c (fun _ _ => 0%Z))
  | Some (SMat r k m), Some (SMat k' c m') =>
      if k =? k' then Some (SMat r c (fun p q => @rsum ZRing nat (fun i => (m p i * m' i q)%Z) (seq 0 k))) else None
  | _, _ => None
  end.
Definition sadd (a b : option spinop) : option spinop :=
  match a, b with
  | Some SZero, Some x | Some x, Some SZero => Some x
  | Some (SMat r c m), Some (SMat r' c' m') =>
      if (r =? r') && (c =? c') then Some (SMat r c (fun p q => (m p q + m' p q)%Z)) else None
  | _, _ => None
  end.
(** [x//2] *)
Definition shalve (a : option spinop) : option spinop :=
  match a with
  | Some (SMat r c m) => Some (SMat r c (fun p q => (m p q / 2)%Z))
  | x => x
  end.

(** qdot.py 328-335: sp_sm, sm_sp, sz_square *)
Definition sp_sm (charge : nat) (sz : Z) (si : SI) : option spinop :=
  if (sz - 2 >=? - szmax charge (si_nsingle si))%Z then sdot (operator_sp charge (sz - 2) si) (operator_sm charge sz si)
  else Some SZero.
Definition sm_sp (charge : nat) (sz : Z) (si : SI) : option spinop :=
  if (sz + 2 <=? szmax charge (si_nsingle si))%Z then sdot (operator_sm charge (sz + 2) si) (operator_sp charge sz si)
  else Some SZero.
(** qdot.py 309-335 operator_ssquare *)
Definition operator_ssquare (charge : nat) (sz : Z) (si : SI) : option spinop :=
  match get_lst si charge (Some sz) None with
  | None => None
  | Some l =>
      sadd (shalve (sadd (sp_sm charge sz si) (sm_sp charge sz si)))
           (Some (SMat (length l) (length l) (fun p q => if p =? q then (sz * sz)%Z else 0%Z)))
  end.
