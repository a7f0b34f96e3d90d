(** Chemical potentials, temperatures and band widths: leadstun.py make_array 321-362, make_array_dlst 365-392,
    LeadsTunneling.__init__ 424-437, add 443-464, change 477-496 (the parts on mulst, tlst, dlst); baths.py 215-216,
    245-249, 275-278 (tlst_ph and dlst_ph: npar = nbaths, no symmetry).

    A one-dimensional array is a list, dlst (n by 2) a list of pairs.  [lst_old[0:npar]] is a view: what is written to it is
    written to lst_old, also when a later statement raises.  So every call returns the arrays after it and a flag that is
    false if it raised.  Dictionary keys are integers (negative ones count from the end of the view). *)
From Coq Require Import List Arith Lia Bool ZArith.
From Verif Require Import Base CRing.
Import ListNotations.
Open Scope nat_scope.

(** position of index j in n entries; None = IndexError *)
Definition py_index (n : nat) (j : Z) : option nat :=
  if (0 <=? j)%Z then (if (j <? Z.of_nat n)%Z then Some (Z.to_nat j) else None)
  else if (0 <=? j + Z.of_nat n)%Z then Some (Z.to_nat (j + Z.of_nat n)) else None.
(** [for j1 in lst: lst_arr[j1] = lst[j1]] with lst_arr = l[0:npar] *)
Fixpoint write_view {A} (npar : nat) (l : list A) (items : list (Z * A)) : list A * bool :=
  match items with
  | [] => (l, true)
  | (j, v) :: r => match py_index (Nat.min npar (length l)) j with
                   | None => (l, false)
                   | Some i => write_view npar (set_nth i v l) r
                   end
  end.
(** numpy broadcasting of a one-dimensional array (or of rows) to n entries; None = ValueError *)
Definition broadcast {A} (n : nat) (arr : list A) : option (list A) :=
  if Nat.eqb (length arr) n then Some arr else match arr with [x] => Some (repeat x n) | _ => None end.

Section Arrays.
Variable K : CRing.
Local Open Scope rng_scope.
Variables (spin : bool) (npar : nat).
(** [np.concatenate((lst_arr, lst_arr))] *)
Definition doubled {A} (l : list A) : list A := if spin then l ++ l else l.

(** the argument mulst or tlst: dict, list or array, number, anything else *)
Inductive par := PDict (d : list (Z * K)) | PList (l : list K) | PNum (v : K) | POther.
(** leadstun.py 321-362: lst_old after the call, and the result (None = raised) *)
Definition make_array (old : option (list K)) (x : par) : option (list K) * option (list K) :=
  match x with
  | PDict d => let '(l, ok) := write_view npar (match old with None => repeat 0 npar | Some o => o end) d in
               (option_map (fun _ => l) old, if ok then Some (doubled (firstn npar l)) else None)
  | PList l => (old, Some (doubled l))
  | PNum v => (old, Some (doubled (map (fun x => v * x) (repeat 1 npar))))
  | POther => (old, Some (doubled (repeat 0 npar)))
  end.

(** the argument dlst: dict of numbers or pairs, list of numbers, list of pairs, number, anything else *)
Inductive dpar := DDict (d : list (Z * (K + K * K))) | DNums (l : list K) | DPairs (l : list (K * K)) | DNum (v : K) | DOther.
Definition band (w : K + K * K) : K * K := match w with inl v => (- v, v) | inr p => p end.
(** [lst_arr[:, 0] = -w; lst_arr[:, 1] = +w] *)
Definition write_cols (l : list (K * K)) (w : list K) : list (K * K) * bool :=
  match broadcast (Nat.min npar (length l)) w with
  | None => (l, false)
  | Some w => (map (fun v => (- v, v)) w ++ skipn npar l, true)
  end.
(** leadstun.py 365-392 *)
Definition make_array_dlst (old : option (list (K * K))) (x : dpar) : option (list (K * K)) * option (list (K * K)) :=
  let l := match old with None => repeat (0, 0) npar | Some o => o end in
  let ret lo := (option_map (fun _ => fst lo) old, if snd lo : bool then Some (doubled (firstn npar (fst lo))) else None) in
  match x with
  | DNum v => ret (write_cols l (map (fun x => v * x) (repeat 1 npar)))
  | DDict d => ret (write_view npar l (map (fun e => (fst e, band (snd e))) d))
  | DNums [] => (old, None)
  | DNums w => ret (write_cols l w)
  | DPairs p => (old, Some (doubled p))
  | DOther => ret (l, true)
  end.

(** [self.lst[:] = make(self.lst, x)] and [self.lst += make(None, x)] *)
Section OneArray.
Context {A X : Type}.
Variables (make : option (list A) -> X -> option (list A) * option (list A)) (plus : A -> A -> A).
Definition change_one (self : list A) (x : X) : list A * bool :=
  match make (Some self) x with
  | (Some self', Some r) => match broadcast (length self') r with Some a => (a, true) | None => (self', false) end
  | (Some self', None) => (self', false)
  | (None, _) => (self, false)
  end.
Definition add_one (self : list A) (x : X) : list A * bool :=
  match make None x with
  | (_, Some r) => match broadcast (length self) r with
                   | Some a => (map (fun p => plus (fst p) (snd p)) (combine self a), true)
                   | None => (self, false)
                   end
  | (_, None) => (self, false)
  end.
End OneArray.

(** *** the object *)
Definition addp (p q : K * K) : K * K := (fst p + fst q, snd p + snd q).
Record LP := mkLP { lp_mu : list K; lp_T : list K; lp_D : list (K * K) }.
Definition lp_init (mu T : par) (D : dpar) : option LP :=
  match snd (make_array None mu), snd (make_array None T), snd (make_array_dlst None D) with
  | Some mu, Some T, Some D => Some (mkLP mu T D)
  | _, _, _ => None
  end.
(** a call of add or change; None for an argument that is not given *)
Inductive call := CAdd (mu T : option par) (D : option dpar) | CChange (mu T : option par) (D : option dpar).
Definition opt_do {A X} (f : list A -> X -> list A * bool) (self : list A) (x : option X) : list A * bool :=
  match x with None => (self, true) | Some x => f self x end.
(** mulst, then tlst, then dlst; an exception skips the rest *)
Definition three (f : list K -> par -> list K * bool) (g : list (K * K) -> dpar -> list (K * K) * bool)
           (s : LP) (mu T : option par) (D : option dpar) : LP * bool :=
  let '(mu', ok) := opt_do f (lp_mu s) mu in
  if negb ok then (mkLP mu' (lp_T s) (lp_D s), false) else
  let '(T', ok) := opt_do f (lp_T s) T in
  if negb ok then (mkLP mu' T' (lp_D s), false) else
  let '(D', ok) := opt_do g (lp_D s) D in (mkLP mu' T' D', ok).
Definition lp_step (s : LP) (c : call) : LP * bool :=
  match c with
  | CAdd mu T D => three (add_one make_array (fun a b => a + b)) (add_one make_array_dlst addp) s mu T D
  | CChange mu T D => three (change_one make_array) (change_one make_array_dlst) s mu T D
  end.
(** calls until one raises *)
Fixpoint lp_run (s : LP) (cs : list call) : LP * bool :=
  match cs with [] => (s, true) | c :: r => let '(s', ok) := lp_step s c in if ok then lp_run s' r else (s', false) end.
End Arrays.
