(** Model of the multiplet construction of qdot.py: ssquare_eigenstates 338-376 and construct_manybody_eigenstates_ssq_all
    460-540.

    Numbers are exact: real numbers for the eigenvalues, complex numbers for the Hamiltonian and the eigenvectors.
    [np.linalg.eigh] is a parameter, once for the (integer) matrix of S^2 and once for the projected Hamiltonian.
    [None] is an exception.  Printing is left out. *)
From Coq Require Import String ZArith List Arith Lia Bool Reals.
From Verif Require Import Base Bits Indexing CRing Operators SpinOps.
Import ListNotations.
Open Scope nat_scope.
Local Notation length := List.length.
Local Notation C := (Cx RRing).

(** a loop whose body may raise *)
Fixpoint ofold {A S} (f : S -> A -> option S) (l : list A) (s : S) : option S :=
  match l with [] => Some s | x :: l' => match f s x with Some s' => ofold f l' s' | None => None end end.

(** [l[k] = v] for an integer k; None = IndexError *)
Definition py_set {A} (l : list A) (k : Z) (v : A) : option (list A) :=
  if (0 <=? k)%Z then if (k <? Z.of_nat (length l))%Z then Some (set_nth (Z.to_nat k) v l) else None
  else if (- Z.of_nat (length l) <=? k)%Z then Some (set_nth (Z.to_nat (Z.of_nat (length l) + k)) v l) else None.

(** np.rint: to the nearest integer, ties to the even one *)
Definition rint (x : R) : Z :=
  let k := (up x - 1)%Z in
  match total_order_T (x - IZR k) (1 / 2) with
  | inleft (left _) => k
  | inleft (right _) => if Z.even k then k else (k + 1)%Z
  | inright _ => (k + 1)%Z
  end.

(** real and complex arrays with their shape *)
Record rarr := mkRArr { ra_rows : nat; ra_cols : nat; ra_at : nat -> nat -> R }.
(** entries of valslst and vecslst at one (szind, ssqind) *)
Record cell := mkCell { cl_rows : nat; cl_cols : nat; cl_vals : nat -> R; cl_vec : nat -> nat -> C }.

Section Multiplets.
Variable eigh_real : nat -> (nat -> nat -> R) -> (nat -> R) * (nat -> nat -> R).
Variable eigh_cplx : nat -> (nat -> nat -> C) -> (nat -> R) * (nat -> nat -> C).

(** [np.nonzero(eigval == ssq)[0]] *)
Definition positions (ev : list Z) (ssq : Z) : list nat :=
  filter (fun j => (nth j ev 0 =? ssq)%Z) (seq 0 (length ev)).
(** [eigvec[:][:, v[0][0]:v[0][-1]+1]] *)
Definition ssq_slice (d : nat) (vec : nat -> nat -> R) (v : list nat) : option rarr :=
  match v with
  | [] => None
  | first :: _ => Some (mkRArr d (S (last v 0) - first) (fun p j => vec p (first + j)))
  end.

(** qdot.py 361-376; the list starts as [0, 0, ...], an entry not written is [None].
    With the wrong parity the function returns the number 0, which the caller subscripts. *)
Definition ssquare_eigenstates (charge : nat) (sz : Z) (si : SI) : option (list (option rarr)) :=
  if negb (Z.of_nat charge mod 2 =? sz mod 2)%Z then None
  else match operator_ssquare charge sz si with
       | Some (SMat r c m) =>
           if r =? c then
             let (val, vec) := eigh_real r (fun p q => IZR (m p q)) in
             let ev := map (fun j => rint (-1 + sqrt (1 + val j))) (seq 0 r) in
             ofold (fun acc ssq => match ssq_slice r vec (positions ev ssq) with
                                   | None => None
                                   | Some x => py_set acc (ssq_to_ind ssq sz) (Some x)
                                   end)
                   (ssqrange charge sz (si_nsingle si))
                   (map (fun _ => None) (ssqrange charge sz (si_nsingle si)))
           else None
       | _ => None
       end.

(** valslst and vecslst *)
Definition store := list (list (option cell)).
Definition sget (s : store) (szind ssqind : Z) : option cell :=
  match py_nth s szind with
  | Some row => match py_nth row ssqind with Some (Some x) => Some x | _ => None end
  | None => None
  end.
Definition sput (s : store) (szind ssqind : Z) (x : cell) : option store :=
  match py_nth s szind with
  | Some row => match py_set row ssqind (Some x) with Some row' => py_set s szind row' | None => None end
  | None => None
  end.

Definition rC (x : R) : C := @ofR RRing x.
(** [np.dot(V.T, np.dot(ham, V))] with a d x d matrix ham *)
Definition project (d : nat) (ham : nat -> nat -> C) (V : nat -> nat -> R) : nat -> nat -> C := fun i j =>
  rsum (fun p => rmul (rC (V p i)) (rsum (fun q => rmul (ham p q) (rC (V q j))) (seq 0 d))) (seq 0 d).
(** [np.dot(V, W)] with inner dimension w *)
Definition expand (w : nat) (V : nat -> nat -> R) (W : nat -> nat -> C) : nat -> nat -> C := fun p j =>
  rsum (fun t => rmul (rC (V p t)) (W t j)) (seq 0 w).

(** qdot.py 510-516: body of the loop over ssq at the lowest |sz|; [ham] has the size of statelst *)
Definition low_step (d : nat) (ham : nat -> nat -> C) (ssq_eigvec : list (option rarr)) (szind : Z) (szlow : Z)
           (s : store) (ssq : Z) : option store :=
  let ssqind := ssq_to_ind ssq szlow in
  match py_nth ssq_eigvec ssqind with
  | Some (Some V) =>
      if ra_rows V =? d then
        let hamp := project d ham (ra_at V) in
        let (eigvalp, eigvecp) := eigh_cplx (ra_cols V) hamp in
        sput s szind ssqind (mkCell d (ra_cols V) eigvalp (expand (ra_cols V) (ra_at V) eigvecp))
      else None
  | _ => None
  end.

(** [np.dot(op, vec)/fct] *)
Definition apply_op (op : option spinop) (fct : R) (x : cell) : option cell :=
  match op with
  | Some (SMat r k m) =>
      if k =? cl_rows x then
        Some (mkCell r (cl_cols x) (cl_vals x)
          (fun p j => rmul (rC (/ fct)) (rsum (fun q => rmul (rC (IZR (m p q))) (cl_vec x q j)) (seq 0 k))))
      else None
  | Some SZero => Some (mkCell (cl_rows x) (cl_cols x) (cl_vals x) (fun p j => rC 0))
  | None => None
  end.
(** qdot.py 521-528 and 531-538: body of the loops over ssq, from sz to sz2 = sz+2 or sz-2 *)
Definition ladder_step (charge nsingle : nat) (sz sz2 : Z) (op : option spinop) (s : store) (ssq : Z) : option store :=
  match sget s (sz_to_ind sz charge nsingle) (ssq_to_ind ssq sz) with
  | None => None
  | Some x =>
      match apply_op op (sqrt (IZR (ssq * (ssq + 2) - sz * sz2))) x with
      | None => None
      | Some y => sput s (sz_to_ind sz2 charge nsingle) (ssq_to_ind ssq sz2) y
      end
  end.
(** Python [range(lo, hi, -2)] *)
Definition range2_down (lo hi : Z) : list Z :=
  map (fun k => (lo - 2 * Z.of_nat k)%Z) (seq 0 (Z.to_nat ((lo - hi + 1) / 2))).

Definition ups_pass (charge : nat) (si : SI) (s : store) (sz : Z) : option store :=
  ofold (ladder_step charge (si_nsingle si) sz (sz + 2) (operator_sp charge sz si)) (ssqrange charge (sz + 2) (si_nsingle si)) s.
Definition downs_pass (charge : nat) (si : SI) (s : store) (sz : Z) : option store :=
  ofold (ladder_step charge (si_nsingle si) sz (sz - 2) (operator_sm charge sz si)) (ssqrange charge (sz - 2) (si_nsingle si)) s.

(** qdot.py 460-540; [ham]: the Hamiltonian on the states with sz = szlow (argument ham_ or built in 496-501) *)
Definition eigenstates_ssq_all (charge : nat) (ham : nat -> nat -> C) (si : SI) : option store :=
  let n := si_nsingle si in
  let szlow := (- (Z.of_nat charge mod 2))%Z in
  let s0 := map (fun j => map (fun _ => None) (ssqrange charge j n)) (szrange charge n) in
  match get_lst si charge (Some szlow) None, ssquare_eigenstates charge szlow si with
  | Some statelst, Some ssq_eigvec =>
      match ofold (low_step (length statelst) ham ssq_eigvec (sz_to_ind szlow charge n) szlow) (ssqrange charge szlow n) s0 with
      | None => None
      | Some s1 =>
          match ofold (ups_pass charge si) (range2 szlow (szmax charge n - 1)) s1 with
          | None => None
          | Some s2 => ofold (downs_pass charge si) (range2_down szlow (- szmax charge n + 1)) s2
          end
      end
  | _, _ => None
  end.
End Multiplets.
