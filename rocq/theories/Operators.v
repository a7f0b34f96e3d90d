(** Model of the four loops that build many-body matrices in the Fock basis:
    leadstun.py construct_Tba, qdot.py construct_ham_hopping and construct_ham_coulomb,
    baths.py elph_construct_Vbbp.

    A Python dict is the list of its items in iteration order.  [m[..] += v] is one element of a
    list of updates; the updates are executed in order on the array given (numpy zeros when the
    optional argument is None).  [None] is an exception.  Level labels are natural numbers
    (negative Python indices are not modelled). *)
From Coq Require Import List Arith Lia Bool.
From Verif Require Import Base Bits Indexing CRing.
Import ListNotations.
Open Scope nat_scope.

(** Python [l.index(x)]; None = ValueError *)
Fixpoint index_of (x : nat) (l : list nat) : option nat :=
  match l with
  | [] => None
  | y :: l' => if x =? y then Some 0 else option_map S (index_of x l')
  end.

Section Model.
Variable K : CRing.
Notation C := (Cx K).
Local Notation "'fs' n" := (sgn C n) (at level 9).

Definition pm (b : bool) : C := if b then r1 else ropp r1.

(** leadstun.py 45-64: body of the inner loop for one state and one item of tleads *)
Definition tba_step (si : SI) (nleads j1 : nat) (state : list bool) (e : (nat * nat) * C)
  : option (list ((nat * nat * nat) * C)) :=
  let '((j3, j2), tamp) := e in
  match nth_error state j2 with
  | None => None
  | Some occupied =>
      let fsign := fs (charge_of (firstn j2 state)) in
      let statep := set_nth j2 (if occupied then false else true) state in
      let v := if occupied then rmul fsign (conj tamp) else rmul fsign tamp in
      match get_ind si statep with
      | IndRaise => None
      | IndNone => Some []
      | Ind ind =>
          if (j3 <? nleads) && (ind <? si_nmany si) && (j1 <? si_nmany si)
          then Some [((j3, ind, j1), v)] else None
      end
  end.

(** leadstun.py 16-65 construct_Tba *)
Definition construct_Tba (si : SI) (nleads : nat) (tleads : list ((nat * nat) * C))
           (Tba_ : nat * nat * nat -> C) : option (nat * nat * nat -> C) :=
  match oconcat (fun j1 => match get_state si j1 with
                           | None => None
                           | Some state => oconcat (tba_step si nleads j1 state) tleads
                           end) (seq 0 (si_nmany si)) with
  | None => None
  | Some us => Some (run_updates eq3 us Tba_)
  end.

(** qdot.py 105-126: one state, one item of hsingle *)
Definition hop_step (si : SI) (herm_hs : bool) (statelst : list nat) (j1 : nat) (state : list bool)
           (e : (nat * nat) * C) : option (list ((nat * nat) * C)) :=
  let '((j2, j3), hop) := e in
  match nth_error state j2 with
  | None => None
  | Some s2 =>
      if j2 =? j3 then (if s2 then Some [((j1, j1), hop)] else Some [])
      else if s2 then
        match nth_error state j3 with
        | None => None
        | Some s3 =>
            if s3 then Some []
            else
              let fsign := rmul (fs (charge_of (firstn j2 state) + charge_of (firstn j3 state))) (pm (j3 <? j2)) in
              let statep := set_nth j3 true (set_nth j2 false state) in
              match get_ind si statep with
              | IndRaise => None
              | IndNone => Some []
              | Ind state_index =>
                  match index_of state_index statelst with
                  | None => None
                  | Some ind =>
                      Some (((ind, j1), rmul hop fsign)
                            :: (if herm_hs then [((j1, ind), rmul (conj hop) fsign)] else []))
                  end
              end
        end
      else Some []
  end.

(** common outer loop [for j1 in range(nstates): state = si.get_state(statelst[j1])] *)
Definition block_loop (si : SI) (statelst : list nat) {A}
           (step : nat -> list bool -> A -> option (list ((nat * nat) * C))) (items : list A)
  : option (list ((nat * nat) * C)) :=
  oconcat (fun j1 => match nth_error statelst j1 with
                     | None => None
                     | Some k => match get_state si k with
                                 | None => None
                                 | Some state => oconcat (step j1 state) items
                                 end
                     end) (seq 0 (length statelst)).

(** qdot.py 74-127 construct_ham_hopping *)
Definition construct_ham_hopping (si : SI) (herm_hs : bool) (hsingle : list ((nat * nat) * C))
           (statelst : list nat) (ham_ : nat * nat -> C) : option (nat * nat -> C) :=
  match block_loop si statelst (hop_step si herm_hs statelst) hsingle with
  | None => None
  | Some us => Some (run_updates eq2 us ham_)
  end.

(** qdot.py 46-70: one state, one item of coulomb.  The conjunctions are evaluated left to right. *)
Definition coul_step (si : SI) (herm_c m_less_n : bool) (statelst : list nat) (j1 : nat) (state : list bool)
           (e : (nat * nat * nat * nat) * C) : option (list ((nat * nat) * C)) :=
  let '((m, n, k, l), U) := e in
  match nth_error state k with
  | None => None
  | Some false => Some []
  | Some true =>
  match nth_error state l with
  | None => None
  | Some false => Some []
  | Some true =>
  if k =? l then Some [] else
  let fsign := rmul (fs (charge_of (firstn k state) + charge_of (firstn l state))) (pm (negb (l <? k))) in
  let statep := set_nth l false (set_nth k false state) in
  match nth_error statep m with
  | None => None
  | Some true => Some []
  | Some false =>
  match nth_error statep n with
  | None => None
  | Some true => Some []
  | Some false =>
  if m =? n then Some [] else
  let fsign := rmul (rmul fsign (fs (charge_of (firstn n statep) + charge_of (firstn m statep)))) (pm (m <? n)) in
  let statep := set_nth n true (set_nth m true statep) in
  match get_ind si statep with
  | IndRaise => None
  | IndNone => Some []
  | Ind state_index =>
      match index_of state_index statelst with
      | None => None
      | Some ind =>
          Some (((ind, j1), rmul U fsign)
                :: (if herm_c && (negb (m =? l) || negb (n =? k)) && negb (m_less_n && (k <? l))
                    then [((j1, ind), rmul (conj U) fsign)] else []))
      end
  end end end end end.

(** qdot.py 13-71 construct_ham_coulomb *)
Definition construct_ham_coulomb (si : SI) (herm_c m_less_n : bool)
           (coulomb : list ((nat * nat * nat * nat) * C))
           (statelst : list nat) (ham_ : nat * nat -> C) : option (nat * nat -> C) :=
  match block_loop si statelst (coul_step si herm_c m_less_n statelst) coulomb with
  | None => None
  | Some us => Some (run_updates eq2 us ham_)
  end.

(** baths.py 42-60: one state, one item of velph *)
Definition vbbp_step (si : SI) (nbaths j1 : nat) (state : list bool) (e : (nat * nat * nat) * C)
  : option (list ((nat * nat * nat) * C)) :=
  let '((j4, j3, j2), vamp) := e in
  match (if j2 =? j3 then
           match nth_error state j2 with
           | None => None
           | Some true => Some [((j4, j1, j1), vamp)]
           | Some false => Some []
           end
         else
           match nth_error state j2 with
           | None => None
           | Some false => Some []
           | Some true =>
           match nth_error state j3 with
           | None => None
           | Some true => Some []
           | Some false =>
               let fsign := rmul (fs (charge_of (firstn j2 state) + charge_of (firstn j3 state))) (pm (j3 <? j2)) in
               let statep := set_nth j3 true (set_nth j2 false state) in
               match get_ind si statep with
               | IndRaise => None
               | IndNone => Some []
               | Ind ind => Some [((j4, ind, j1), rmul vamp fsign)]
               end
           end end) with
  | None => None
  | Some us =>
      (* writing outside the array is an IndexError *)
      if forallb (fun u => match u with ((b, r, c), _) =>
                    (b <? nbaths) && (r <? si_nmany si) && (c <? si_nmany si) end) us
      then Some us else None
  end.

(** baths.py 13-61 elph_construct_Vbbp *)
Definition elph_construct_Vbbp (si : SI) (nbaths : nat) (velph : list ((nat * nat * nat) * C))
           (Vbbp_ : nat * nat * nat -> C) : option (nat * nat * nat -> C) :=
  match oconcat (fun j1 => match get_state si j1 with
                           | None => None
                           | Some state => oconcat (vbbp_step si nbaths j1 state) velph
                           end) (seq 0 (si_nmany si)) with
  | None => None
  | Some us => Some (run_updates eq3 us Vbbp_)
  end.
End Model.
