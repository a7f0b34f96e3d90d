(** Parameter dictionaries and their histories: qdot.py make_hsingle_dict, make_coulomb_dict, QuantumDot.__init__,
    _init_hamiltonian, add, change; leadstun.py make_tleads_dict, make_tleads_array, make_array, make_array_dlst,
    LeadsTunneling.__init__, add, change, update_Tba0; baths.py make_velph_dict, PhononBaths.__init__, add, change,
    update_Vbbp0; builder_base.py remove_fock_states.

    A dict is its list of items in iteration order.  [isz] is the test [x == 0].  A call that raises is [None]. *)
From Coq Require Import String List Arith Lia Bool ZArith.
From Verif Require Import Base Bits Indexing CRing Operators.
Import ListNotations.
Open Scope nat_scope.
Local Notation length := List.length.

(** items in iteration order, no key twice *)
Notation dict Key V := (list (Key * V)).
Section Dict.
Context {Key V : Type}.
Variable keq : forall a b : Key, {a = b} + {a <> b}.
(** [d[k]]; None = KeyError *)
Fixpoint dget (d : list (Key * V)) (k : Key) : option V :=
  match d with [] => None | (k', v) :: d' => if keq k k' then Some v else dget d' k end.
(** [d[k] = v] and [d.update({k: v})] *)
Fixpoint dset (d : list (Key * V)) (k : Key) (v : V) : list (Key * V) :=
  match d with [] => [(k, v)] | (k', w) :: d' => if keq k k' then (k', v) :: d' else (k', w) :: dset d' k v end.
(** [for j0 in l: d.update({j0: v})] *)
Definition dupdate (d l : list (Key * V)) : list (Key * V) := fold_left (fun d e => dset d (fst e) (snd e)) l d.
End Dict.

Definition eq4 : forall a b : nat * nat * nat * nat, {a = b} + {a <> b}.
Proof. decide equality; [apply Nat.eq_dec|apply eq3]. Defined.

(** What is passed as hsingle, coulomb, tleads or velph: a dict, a list of rows, an array (given by its keys in loop
    order and its entries), or something else. *)
Inductive input (Key V : Type) :=
| InDict (d : dict Key V) | InList (l : list (Key * V)) | InArr (shape : nat * nat * nat) (f : Key -> V) | InOther.
Arguments InDict {Key V}. Arguments InList {Key V}. Arguments InArr {Key V}. Arguments InOther {Key V}.

Section Params.
Variable K : CRing.
Notation C := (Cx K).
Variable isz : C -> bool.
Local Open Scope rng_scope.

(** *** the dictionaries *)
Definition arr_items {Key} (keys : list Key) (f : Key -> C) (add_zeros : bool) : list (Key * C) :=
  map (fun k => (k, f k)) (filter (fun k => (negb (isz (f k)) || add_zeros)%bool) keys).
(** [for j1 in range(n): for j2 in range(j1 if herm_hs else 0, n)] *)
Definition hs_keys (herm_hs : bool) (n : nat) : list (nat * nat) :=
  flat_map (fun j1 => map (fun j2 => (j1, j2)) (seq (if herm_hs then j1 else 0) (n - (if herm_hs then j1 else 0)))) (seq 0 n).
(** the copies with shifted keys for symmetry == 'spin' *)
Definition spin_double {Key} (keq : forall a b : Key, {a = b} + {a <> b}) (shift : Key -> Key) (d : dict Key C) : dict Key C :=
  fold_left (fun s e => dset keq s (shift (fst e)) (snd e)) d d.

(** qdot.py 576-624; [spin] is [si.symmetry == 'spin'], [nss] is si.nsingle_sym *)
Definition make_hsingle_dict (herm_hs spin : bool) (nss : nat) (add_zeros : bool) (x : input (nat * nat) C) : dict (nat * nat) C :=
  match match x with
        | InDict d => Some d
        | InList l => Some (dupdate eq2 [] l)
        | InArr (n, _, _) f => Some (dupdate eq2 [] (arr_items (hs_keys herm_hs n) f add_zeros))
        | InOther => None
        end with
  | None => []
  | Some d => if spin then spin_double eq2 (fun k => (fst k + nss, snd k + nss)%nat) d else d
  end.

(** qdot.py 627-677.  A list and an array of rows are treated in the same way *)
Definition has {V} (d : dict (nat * nat * nat * nat) V) k : bool := match dget eq4 d k with Some _ => true | None => false end.
Definition coulomb_spin (herm_c m_less_n : bool) (nss : nat) (d : dict (nat * nat * nat * nat) C) : dict (nat * nat * nat * nat) C :=
  fold_left (fun s e => let '((m, n, k, l), U) := e in
     let s := if (negb herm_c || negb (has s (l, k + nss, n + nss, m)))%nat%bool then dset eq4 s (m, n + nss, k + nss, l)%nat U else s in
     let s := if m_less_n then
                (if (negb herm_c || negb (has s (k, l + nss, m + nss, n)))%nat%bool then dset eq4 s (n, m + nss, l + nss, k)%nat U else s)
              else dset eq4 s (m + nss, n, k, l + nss)%nat U in
     dset eq4 s (m + nss, n + nss, k + nss, l + nss)%nat U) d d.
Definition make_coulomb_dict (herm_c m_less_n spin : bool) (nss : nat) (x : input (nat * nat * nat * nat) C) : dict (nat * nat * nat * nat) C :=
  match match x with
        | InDict d => Some d
        | InList l => Some (dupdate eq4 [] (filter (fun e => negb (isz (snd e))) l))
        | InArr _ _ => None
        | InOther => None
        end with
  | None => []
  | Some d => if spin then coulomb_spin herm_c m_less_n nss d else d
  end.

(** leadstun.py 251-296; [nls] is si.nleads_sym *)
Definition tl_keys (nleads n : nat) : list (nat * nat) := list_prod (seq 0 nleads) (seq 0 n).
Definition make_tleads_dict (spin : bool) (nls nss : nat) (add_zeros : bool) (x : input (nat * nat) C) : dict (nat * nat) C :=
  match match x with
        | InDict d => Some d
        | InList l => Some (dupdate eq2 [] l)
        | InArr (nl, n, _) f => Some (dupdate eq2 [] (arr_items (tl_keys nl n) f add_zeros))
        | InOther => None
        end with
  | None => []
  | Some d => if spin then spin_double eq2 (fun k => (fst k + nls, snd k + nss)%nat) d else d
  end.
(** leadstun.py 298-319; [=] not [+=], keys outside nleads x nsingle raise *)
Definition make_tleads_array (nleads nsingle : nat) (d : dict (nat * nat) C) : option (nat * nat -> C) :=
  if forallb (fun e => ((fst (fst e) <? nleads) && (snd (fst e) <? nsingle))%nat%bool) d
  then Some (fold_left (fun a e => fun i => if eq2 i (fst e) then snd e else a i) d (fun _ => 0)) else None.

(** baths.py 132-177 *)
Definition ve_keys (nb n1 n2 : nat) : list (nat * nat * nat) := list_prod (list_prod (seq 0 nb) (seq 0 n1)) (seq 0 n2).
Definition make_velph_dict (spin : bool) (nss : nat) (add_zeros : bool) (x : input (nat * nat * nat) C) : dict (nat * nat * nat) C :=
  let d := match x with
           | InDict d => d
           | InList l => dupdate eq3 [] l
           | InArr (nb, n1, n2) f => dupdate eq3 [] (arr_items (ve_keys nb n1 n2) f add_zeros)
           | InOther => []
           end in
  if spin then spin_double eq3 (fun k => let '(j1, j2, j3) := k in (j1, j2 + nss, j3 + nss)%nat) d else d.

(** *** add and change on a dictionary (qdot.py 780-789, 845-870; leadstun.py 466-471, 498-509; baths.py 250-255, 284-294) *)
Section AddChange.
Context {Key : Type}.
Variable keq : forall a b : Key, {a = b} + {a <> b}.
Definition dadd (self new : dict Key C) : dict Key C :=
  fold_left (fun self e => match dget keq self (fst e) with
                           | Some v => dset keq self (fst e) (v + snd e)
                           | None => dset keq self (fst e) (snd e)
                           end) new self.
(** the new dictionary (when [updateq]) and the differences *)
Definition dchange (updateq : bool) (self new : dict Key C) : dict Key C * dict Key C :=
  fold_left (fun st e => let '(self, diff) := st in
     match dget keq self (fst e) with
     | Some v => let df := snd e - v in
         if isz df then st else (if updateq then dset keq self (fst e) (v + df) else self, dset keq diff (fst e) df)
     | None => let df := snd e in
         if isz df then st else (if updateq then dset keq self (fst e) df else self, dset keq diff (fst e) df)
     end) new (self, []).
End AddChange.

(** *** QuantumDot *)
(** An argument of add or change: None, a new object, or the dictionary object the dot itself stores *)
Inductive arg (Key : Type) := ANone | AFresh (x : input Key C) | ASelf.
Arguments ANone {Key}. Arguments AFresh {Key}. Arguments ASelf {Key}.

(** hamlst: one matrix for each block; a block is a charge, or a charge and an sz value *)
Record QD := mkQD { q_si : SI; q_hs : dict (nat * nat) C; q_cl : dict (nat * nat * nat * nat) C;
                    q_ham : nat * option Z -> (nat * nat -> C) }.
Section QuantumDot.
Variables (herm_hs herm_c m_less_n ham_ssq_q spin : bool) (nss : nat).
(** the blocks visited by add (qdot.py 791-819) *)
Definition ham_blocks (si : SI) : list (nat * option Z) :=
  match si_indexing si with
  | IxSz => flat_map (fun c => map (fun z => (c, Some z)) (szrange c (si_nsingle si))) (seq 0 (si_ncharge si))
  | IxSsq => flat_map (fun c => map (fun z => (c, Some z))
               (if ham_ssq_q then szrange c (si_nsingle si) else [(- (Z.of_nat c mod 2))%Z])) (seq 0 (si_ncharge si))
  | _ => map (fun c => (c, None)) (seq 0 (si_ncharge si))
  end.
Definition eqblk : forall a b : nat * option Z, {a = b} + {a <> b}.
Proof. decide equality; [decide equality; apply Z.eq_dec|apply Nat.eq_dec]. Defined.
(** one block: first the Coulomb part, then the hopping part *)
Definition ham_block (si : SI) (hs : dict (nat * nat) C) (cl : dict (nat * nat * nat * nat) C) (b : nat * option Z)
           (m : nat * nat -> C) : option (nat * nat -> C) :=
  match get_lst si (fst b) (snd b) None with
  | None => None
  | Some lst => match construct_ham_coulomb K si herm_c m_less_n cl lst m with
                | None => None
                | Some m => construct_ham_hopping K si herm_hs hs lst m
                end
  end.
(** add(hsingle, coulomb, updateq=False) *)
Definition ham_add (si : SI) (hs : dict (nat * nat) C) (cl : dict (nat * nat * nat * nat) C) (ham : nat * option Z -> (nat * nat -> C))
  : option (nat * option Z -> (nat * nat -> C)) :=
  fold_left (fun h b => match h with
                        | None => None
                        | Some h => match ham_block si hs cl b (h b) with
                                    | None => None
                                    | Some m => Some (fun b' => if eqblk b' b then m else h b')
                                    end
                        end) (ham_blocks si) (Some ham).
(** _init_hamiltonian 743-759: hamlst is emptied, then filled *)
Definition init_hamiltonian (si : SI) (hs : dict (nat * nat) C) (cl : dict (nat * nat * nat * nat) C) : option QD :=
  match ham_add si hs cl (fun _ => zeros) with
  | None => None
  | Some h => Some (mkQD si hs cl h)
  end.
(** __init__ 729-741 *)
Definition qd_init (si : SI) (hs : input (nat * nat) C) (cl : input (nat * nat * nat * nat) C) : option QD :=
  init_hamiltonian si (make_hsingle_dict herm_hs spin nss false hs) (make_coulomb_dict herm_c m_less_n spin nss cl).
(** the dictionaries made from an argument; a stored dictionary is itself a dict argument *)
Definition hs_arg (self : dict (nat * nat) C) (add_zeros : bool) (a : arg (nat * nat)) : dict (nat * nat) C :=
  match a with
  | ANone => []
  | AFresh x => make_hsingle_dict herm_hs spin nss add_zeros x
  | ASelf => make_hsingle_dict herm_hs spin nss add_zeros (InDict self)
  end.
Definition cl_arg (self : dict (nat * nat * nat * nat) C) (a : arg (nat * nat * nat * nat)) : dict (nat * nat * nat * nat) C :=
  match a with
  | ANone => []
  | AFresh x => make_coulomb_dict herm_c m_less_n spin nss x
  | ASelf => make_coulomb_dict herm_c m_less_n spin nss (InDict self)
  end.
(** without spin symmetry the stored object itself is returned, so that after the loop it has the new values *)
Definition seen {Key} (a : arg Key) (given self' : dict Key C) : dict Key C :=
  match a with ASelf => if spin then given else self' | _ => given end.
(** add 761-819 with updateq=True *)
Definition qd_add (q : QD) (hs : arg (nat * nat)) (cl : arg (nat * nat * nat * nat)) : option QD :=
  let dh := hs_arg (q_hs q) false hs in let dc := cl_arg (q_cl q) cl in
  let hs' := dadd eq2 (q_hs q) dh in let cl' := dadd eq4 (q_cl q) dc in
  match ham_add (q_si q) (seen hs dh hs') (seen cl dc cl') (q_ham q) with
  | None => None
  | Some h => Some (mkQD (q_si q) hs' cl' h)
  end.
(** change 821-873 *)
Definition qd_change (q : QD) (hs : arg (nat * nat)) (cl : arg (nat * nat * nat * nat)) (updateq : bool) : option QD :=
  let '(hs', dh) := dchange eq2 updateq (q_hs q) (hs_arg (q_hs q) true hs) in
  let '(cl', dc) := dchange eq4 updateq (q_cl q) (cl_arg (q_cl q) cl) in
  match ham_add (q_si q) dh dc (q_ham q) with
  | None => None
  | Some h => Some (mkQD (q_si q) hs' cl' h)
  end.
(** builder_base.py 288-292: remove_fock_states, then _init_hamiltonian *)
Definition qd_remove (q : QD) (lst : list nat) : option QD :=
  match remove_fock_states (q_si q) lst with
  | None => None
  | Some si => init_hamiltonian si (q_hs q) (q_cl q)
  end.
Inductive qop := QAdd (hs : arg (nat * nat)) (cl : arg (nat * nat * nat * nat))
               | QChange (hs : arg (nat * nat)) (cl : arg (nat * nat * nat * nat))
               | QRemove (lst : list nat).
Definition qd_step (q : QD) (o : qop) : option QD :=
  match o with
  | QAdd hs cl => qd_add q hs cl
  | QChange hs cl => qd_change q hs cl true
  | QRemove lst => qd_remove q lst
  end.
Fixpoint qd_run (q : QD) (os : list qop) : option QD :=
  match os with [] => Some q | o :: os => match qd_step q o with None => None | Some q' => qd_run q' os end end.
End QuantumDot.

(** *** LeadsTunneling: the tunnelling amplitudes (the lead parameters are in LeadParams.v) *)
Record LT := mkLT { lt_si : SI; lt_nl : nat; lt_tl : dict (nat * nat) C; lt_arr : nat * nat -> C; lt_T0 : nat * nat * nat -> C }.
Section Leads.
Variables (spin : bool) (nss : nat).
(** leadstun.py 428, 549: [nleads//2 if si.symmetry == 'spin' else nleads] *)
Definition nls_of (nleads : nat) : nat := if spin then Nat.div2 nleads else nleads.
(** _init_coupling 439-441 *)
Definition lt_coupling (si : SI) (nl : nat) (tl : dict (nat * nat) C) (arr : nat * nat -> C) : option LT :=
  match construct_Tba K si nl tl zeros with None => None | Some T => Some (mkLT si nl tl arr T) end.
(** __init__ 425-437 *)
Definition lt_init (si : SI) (nl : nat) (x : input (nat * nat) C) : option LT :=
  let tl := make_tleads_dict spin (nls_of nl) nss false x in
  match make_tleads_array nl (si_nsingle si) tl with
  | None => None
  | Some arr => lt_coupling si nl tl arr
  end.
Definition tl_arg (self : dict (nat * nat) C) (nl : nat) (add_zeros : bool) (a : arg (nat * nat)) : dict (nat * nat) C :=
  match a with
  | ANone => []
  | AFresh x => make_tleads_dict spin (nls_of nl) nss add_zeros x
  | ASelf => make_tleads_dict spin (nls_of nl) nss add_zeros (InDict self)
  end.
(** add 443-475 with updateq=True; nothing happens for tleads=None *)
Definition lt_add (l : LT) (a : arg (nat * nat)) : option LT :=
  match a with
  | ANone => Some l
  | _ =>
      let d := tl_arg (lt_tl l) (lt_nl l) false a in
      let tl := dadd eq2 (lt_tl l) d in
      match make_tleads_array (lt_nl l) (si_nsingle (lt_si l)) tl with
      | None => None
      | Some arr => match construct_Tba K (lt_si l) (lt_nl l) (seen spin a d tl) (lt_T0 l) with
                    | None => None
                    | Some T => Some (mkLT (lt_si l) (lt_nl l) tl arr T)
                    end
      end
  end.
(** change 477-511; tleads_array is not touched, because add is called with updateq=False *)
Definition lt_change (l : LT) (a : arg (nat * nat)) : option LT :=
  match a with
  | ANone => Some l
  | _ =>
      let '(tl, dd) := dchange eq2 true (lt_tl l) (tl_arg (lt_tl l) (lt_nl l) true a) in
      match construct_Tba K (lt_si l) (lt_nl l) dd (lt_T0 l) with
      | None => None
      | Some T => Some (mkLT (lt_si l) (lt_nl l) tl (lt_arr l) T)
      end
  end.
(** builder_base.py 288-292 *)
Definition lt_remove (l : LT) (lst : list nat) : option LT :=
  match remove_fock_states (lt_si l) lst with
  | None => None
  | Some si => lt_coupling si (lt_nl l) (lt_tl l) (lt_arr l)
  end.
(** update_Tba0 533-552 for a dict; tleads_array and Tba0 are made from the argument, not from self.tleads *)
Definition lt_update (l : LT) (nl : nat) (d : dict (nat * nat) C) : option LT :=
  match make_tleads_array nl (si_nsingle (lt_si l)) d with
  | None => None
  | Some arr => match construct_Tba K (lt_si l) nl d zeros with
                | None => None
                | Some T => Some (mkLT (lt_si l) nl (make_tleads_dict spin (nls_of nl) nss false (InDict d)) arr T)
                end
  end.
Inductive lop := LAdd (a : arg (nat * nat)) | LChange (a : arg (nat * nat)) | LRemove (lst : list nat)
               | LUpdate (nl : nat) (d : dict (nat * nat) C).
Definition lt_step (l : LT) (o : lop) : option LT :=
  match o with
  | LAdd a => lt_add l a
  | LChange a => lt_change l a
  | LRemove lst => lt_remove l lst
  | LUpdate nl d => lt_update l nl d
  end.
Fixpoint lt_run (l : LT) (os : list lop) : option LT :=
  match os with [] => Some l | o :: os => match lt_step l o with None => None | Some l' => lt_run l' os end end.
End Leads.

(** *** PhononBaths: the couplings *)
Record PB := mkPB { pb_si : SI; pb_nb : nat; pb_ve : dict (nat * nat * nat) C; pb_V0 : nat * nat * nat -> C }.
Section Baths.
Variables (spin : bool) (nss : nat).
(** _init_coupling 221-223 *)
Definition pb_coupling (si : SI) (nb : nat) (ve : dict (nat * nat * nat) C) : option PB :=
  match elph_construct_Vbbp K si nb ve zeros with None => None | Some V => Some (mkPB si nb ve V) end.
(** __init__ 208-219 *)
Definition pb_init (si : SI) (nb : nat) (x : input (nat * nat * nat) C) : option PB :=
  pb_coupling si nb (make_velph_dict spin nss false x).
Definition ve_arg (self : dict (nat * nat * nat) C) (add_zeros : bool) (a : arg (nat * nat * nat)) : dict (nat * nat * nat) C :=
  match a with
  | ANone => []
  | AFresh x => make_velph_dict spin nss add_zeros x
  | ASelf => make_velph_dict spin nss add_zeros (InDict self)
  end.
(** add 225-258 with updateq=True *)
Definition pb_add (p : PB) (a : arg (nat * nat * nat)) : option PB :=
  match a with
  | ANone => Some p
  | _ =>
      let d := ve_arg (pb_ve p) false a in
      let ve := dadd eq3 (pb_ve p) d in
      match elph_construct_Vbbp K (pb_si p) (pb_nb p) (seen spin a d ve) (pb_V0 p) with
      | None => None
      | Some V => Some (mkPB (pb_si p) (pb_nb p) ve V)
      end
  end.
(** change 260-296 *)
Definition pb_change (p : PB) (a : arg (nat * nat * nat)) : option PB :=
  match a with
  | ANone => Some p
  | _ =>
      let '(ve, dd) := dchange eq3 true (pb_ve p) (ve_arg (pb_ve p) true a) in
      match elph_construct_Vbbp K (pb_si p) (pb_nb p) dd (pb_V0 p) with
      | None => None
      | Some V => Some (mkPB (pb_si p) (pb_nb p) ve V)
      end
  end.
(** builder_elph.py 146-149 *)
Definition pb_remove (p : PB) (lst : list nat) : option PB :=
  match remove_fock_states (pb_si p) lst with None => None | Some si => pb_coupling si (pb_nb p) (pb_ve p) end.
(** update_Vbbp0 318-335 for a dict; Vbbp0 is made from the argument, not from self.velph *)
Definition pb_update (p : PB) (nb : nat) (d : dict (nat * nat * nat) C) : option PB :=
  match elph_construct_Vbbp K (pb_si p) nb d zeros with
  | None => None
  | Some V => Some (mkPB (pb_si p) nb (make_velph_dict spin nss false (InDict d)) V)
  end.
Inductive pop := PAdd (a : arg (nat * nat * nat)) | PChange (a : arg (nat * nat * nat)) | PRemove (lst : list nat)
               | PUpdate (nb : nat) (d : dict (nat * nat * nat) C).
Definition pb_step (p : PB) (o : pop) : option PB :=
  match o with
  | PAdd a => pb_add p a
  | PChange a => pb_change p a
  | PRemove lst => pb_remove p lst
  | PUpdate nb d => pb_update p nb d
  end.
Fixpoint pb_run (p : PB) (os : list pop) : option PB :=
  match os with [] => Some p | o :: os => match pb_step p o with None => None | Some p' => pb_run p' os end end.
End Baths.
End Params.
