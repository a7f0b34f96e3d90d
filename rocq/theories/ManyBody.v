(** Systems given by their many-body states: qmeq/builder/builder_base.py class BuilderManyBody 318-359
    (many_body of builder.py and BuilderManyBodyElPh call the same code), and the calls remove_states and
    use_all_states of builder/various.py 285-321 on such an object. *)
From Coq Require Import String List Arith Lia ZArith Bool QArith.
From Verif Require Import Base Bits Indexing Qn DMIndex Selection.
Import ListNotations.

Open Scope nat_scope.
Local Notation length := List.length.

(** [Na.min()], [Na.max()] of an integer array; None = ValueError for an empty array *)
Definition z_min (l : list Z) : option Z := match l with [] => None | x :: t => Some (fold_left Z.min t x) end.
Definition z_max (l : list Z) : option Z := match l with [] => None | x :: t => Some (fold_left Z.max t x) end.

(** the place that Python's [l[k]] means in a list of length m; None = IndexError *)
Definition py_pos (m : nat) (k : Z) : option nat :=
  if (0 <=? k)%Z then if (k <? Z.of_nat m)%Z then Some (Z.to_nat k) else None
  else if (- Z.of_nat m <=? k)%Z then Some (Z.to_nat (Z.of_nat m + k)) else None.

(** lines 349-350: [for i in range(nmany): statesdm[Na[i]].append(i)] *)
Fixpoint mb_fill (Na : list Z) (is_ : list nat) (st : list (list nat)) : option (list (list nat)) :=
  match is_ with
  | [] => Some st
  | i :: is' =>
      match nth_error Na i with
      | None => None
      | Some q => match py_pos (length st) q with
                  | None => None
                  | Some k => mb_fill Na is' (upd_nth k (fun l => l ++ [i]) st)
                  end
      end
  end.

(** lines 343-350: ncharge and the lists of states; [nmany] is len(Ea) *)
Definition mb_states (Na : list Z) (nmany : nat) : option (nat * list (list nat)) :=
  match z_min Na, z_max Na with
  | Some nmin, Some nmax =>
      let nc := Z.to_nat (nmax - nmin + 1) in
      option_map (fun st => (nc, st)) (mb_fill Na (seq 0 nmany) (repeat [] nc))
  | _, _ => None
  end.

(** the indexing object before line 337: BuilderBase.__init__ with nsingle=0, indexing='charge' *)
Definition mb_si (kd : kind) : SI := fst (call_init kd 0 "charge"%string).

(** lines 352-359; the arrays are new ones with zeros.  self.indexing is 'charge'. *)
Definition mb_init (kd : kind) (Na : list Z) (nmany : nat) : option DMI :=
  option_map (fun p => snd (set_statesdm kd (si_indexing (mb_si kd)) (ind_qn (mb_si kd)) (qn_ind (mb_si kd))
                              (fst p) (repeat 0 nmany) (snd p)))
             (mb_states Na nmany).

(** ** Selecting states of such an object *)
(** [si.set_statesdm(lst)] with its IndexErrors: Pauli and DMc read from the list with the appended element
    (indexing.py 721-725, 1099-1105), DM from the argument (899-904). *)
Definition mb_set (kd : kind) (dm : DMI) (lst : list (list nat)) : option (list (list nat) * DMI) :=
  let readable := match kd with KDM => length lst | _ => length lst + 1 end in
  if dm_ncharge dm <=? readable then
    Some (set_statesdm kd (si_indexing (mb_si kd)) (ind_qn (mb_si kd)) (qn_ind (mb_si kd)) (dm_ncharge dm) (dm_dictdm dm) lst)
  else None.
(** various.py 321; [cl] is si.chargelst, which _init_state_indexing leaves as the one of nsingle=0 *)
Definition mb_use_all (kd : kind) (cl : list (list nat)) (dm : DMI) : option (list (list nat) * DMI) := mb_set kd dm cl.
(** various.py 300-305: range(nsingle+1) lists, but a loop over range(ncharge); None = IndexError *)
Fixpoint mb_low (E : list Q) (Emax : Q) (cl : list (list nat)) (cs : list nat) (st : list (list nat)) : option (list (list nat)) :=
  match cs with
  | [] => Some st
  | c :: cs' =>
      match nth_error cl c with
      | None => None
      | Some bs =>
          let low := filter (fun b => q_lt (nth b E 0%Q) Emax) bs in
          match low, (c <? length st) with
          | [], _ => mb_low E Emax cl cs' st
          | _, true => mb_low E Emax cl cs' (upd_nth c (fun l => l ++ low) st)
          | _, false => None
          end
      end
  end.
Definition mb_remove_states (kd : kind) (cl : list (list nat)) (dm : DMI) (E : list Q) (dE : Q) : option (list (list nat) * DMI) :=
  match min_energy E with
  | None => None
  | Some m =>
      match mb_low E (m + dE)%Q cl (seq 0 (dm_ncharge dm)) (repeat [] (si_nsingle (mb_si kd) + 1)) with
      | None => None
      | Some st => option_map (fun r => (cl, snd r)) (mb_set kd dm st)
      end
  end.

(** ** Choosing another approach *)
(** builder_base.py 164-172 change_si, called by set_kerntype: a new indexing object is made from si.nsingle,
    si.indexing when the approach needs another class; the classes are not subclasses of each other *)
Definition kind_eqb (a b : kind) : bool :=
  match a, b with KPauli, KPauli | KDM, KDM | KDMc, KDMc => true | _, _ => false end.
Definition mb_switch (kd kd' : kind) (dm : DMI) : DMI :=
  if kind_eqb kd kd' then dm else snd (call_init kd' (si_nsingle (mb_si kd)) "charge"%string).

Example mb_ex : option_map (fun dm => (dm_ncharge dm, dm_statesdm dm, dm_npauli dm, dm_ndm0 dm)) (mb_init KDM [0; 1; 1; 2]%Z 4)
  = Some (3, [[0]; [1; 2]; [3]; []], 4, 5).
Proof. vm_compute. reflexivity. Qed.
Example mb_ex_shifted : mb_init KDM [1; 2; 2; 3]%Z 4 = None.
Proof. vm_compute. reflexivity. Qed.
Example mb_ex_mixed : option_map dm_statesdm (mb_init KDM [-1; 0; 0; 1]%Z 4) = Some [[1; 2]; [3]; [0]; []].
Proof. vm_compute. reflexivity. Qed.
