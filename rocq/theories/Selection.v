(** Selecting states by energy and reading out density-matrix elements by state:
    qmeq/builder/various.py remove_states 285-306, use_all_states 309-321, get_phi0 85-122, get_phi1 125-158. *)
From Coq Require Import String List Arith Lia ZArith Bool QArith.
From Verif Require Import Base Bits Indexing IndexingProofs RemoveProofs Binom SsqProofs Qn
  PropIndexing DMIndex DMIndexProofs DMReach PropDMIndex CRing Layout.
Import ListNotations.
Open Scope nat_scope.
Local Notation length := List.length.

(** *** remove_states *)
(** Energies are rational numbers (every float is one); the addition is exact. *)
Definition q_lt (x y : Q) : bool := negb (Qle_bool y x).
(** [min(Ea)]; None = ValueError *)
Definition min_energy (E : list Q) : option Q :=
  match E with
  | [] => None
  | e :: r => Some (fold_left (fun m x => if q_lt x m then x else m) r e)
  end.
(** lines 300-305: the list [statesdm], one list for each charge in range(nsingle+1) (= range(ncharge)) *)
Definition low_states (E : list Q) (Emax : Q) (si : SI) : list (list nat) :=
  map (fun charge => filter (fun b => q_lt (nth b E 0%Q) Emax) (nth charge (si_chargelst si) []))
      (seq 0 (si_nsingle si + 1)).
Definition call_remove_states (kd : kind) (dm : DMI) (si : SI) (E : list Q) (dE : Q) : option (SI * DMI) :=
  match min_energy E with
  | None => None
  | Some m => Some (call_set kd dm si (low_states E (m + dE)%Q si))
  end.

(** *** get_phi0, get_phi1 *)
Section Readout.
Variable K : CRing.
Local Open Scope rng_scope.
Local Notation C := (Cx K).
Variables (si : SI) (L : Lay) (order : list nat).
(** [si.states_order[b_]] and [sum(si.get_state(b))]; None = IndexError *)
Definition labelled (b_ : nat) : option (nat * nat) :=
  match nth_error order b_ with
  | None => None
  | Some b => option_map (fun s => (b, electrons s)) (get_state si b)
  end.
Definition with_two {A} (x y : option (nat * nat)) (f : nat -> nat -> nat -> nat -> option A) : option A :=
  match x, y with Some (b, bc), Some (bp, bpc) => f b bc bp bpc | _, _ => None end.
(** lines 107-120 for StateIndexingDM (real vector phi0); [pauli] is [self.funcp.kerntype == 'Pauli'] *)
Definition get_phi0 (pauli : bool) (phi0 : list K) (b_ bp_ : nat) : option C :=
  with_two (labelled b_) (labelled bp_) (fun b bc bp bpc =>
    if pauli then
      if b =? bp then
        match nth_error (ly_mapdm0 L) (slot_at L b b (Z.of_nat bc)) with
        | None => None
        | Some ind => option_map (fun v => ofR v) (py_nth phi0 ind)
        end
      else Some 0
    else if bc =? bpc then
      match nth_error (ly_mapdm0 L) (slot_at L b bp (Z.of_nat bc)), nth_error (ly_conjdm0 L) (slot_at L b bp (Z.of_nat bc)) with
      | Some ind, Some cj =>
          if (ind =? -1)%Z then Some 0
          else match py_nth phi0 ind, py_nth phi0 (Z.of_nat (ly_ndm0 L) - Z.of_nat (ly_npauli L) + ind) with
               | Some x, Some y => Some (mkC x (y * (if cj then 1 else - (1)) * (if (ind <? Z.of_nat (ly_npauli L))%Z then 0 else 1)))
               | _, _ => None
               end
      | _, _ => None
      end
    else Some 0).
(** lines 113-116 for StateIndexingDMc (complex vector phi0) *)
Definition get_phi0_c (phi0 : list C) (b_ bp_ : nat) : option C :=
  with_two (labelled b_) (labelled bp_) (fun b bc bp bpc =>
    if bc =? bpc then
      match nth_error (ly_mapdm0 L) (slot_at L b bp (Z.of_nat bc)) with
      | None => None
      | Some ind => if (ind =? -1)%Z then Some 0 else py_nth phi0 ind
      end
    else Some 0).
(** lines 147-158; row [phi1[l]] of the array *)
Definition get_phi1 (phi1 : list C) (c_ b_ : nat) : option C :=
  with_two (labelled c_) (labelled b_) (fun c cc b bc =>
    if cc =? bc + 1 then nth_error phi1 (ind1 L c b (Z.of_nat bc))
    else if cc + 1 =? bc then option_map (@conj K) (nth_error phi1 (ind1 L b c (Z.of_nat cc)))
    else Some 0).
End Readout.
