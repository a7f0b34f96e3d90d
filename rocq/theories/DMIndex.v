(** Density-matrix element numbering: qmeq/indexing.py 669-1245,
    classes StateIndexingPauli, StateIndexingDM, StateIndexingDMc. *)
From Coq Require Import String List Arith Lia ZArith Bool Permutation.
From Verif Require Import Base Bits Indexing IndexingProofs RemoveProofs Binom SsqProofs Qn.
Import ListNotations.
Open Scope nat_scope.
Local Notation length := List.length.

(** ** Model *)
Inductive kind := KPauli | KDM | KDMc.

(** indexing.py 735 / 915 / 918 / 1117 / 1120: [shift[j+1] = shift[j] + w(j)] for j in range(m) *)
Definition shift_loop (m : nat) (w : nat -> nat) (sh0 : list nat) : list nat :=
  fold_left (fun sh j => set_nth (S j) (nth j sh 0 + w j) sh) (seq 0 m) sh0.

(** indexing.py 736-739 / 919-922 / 1121-1124: positions of the states in their charge list.
    The array [dictdm] is not cleared between calls, so the previous one is an argument. *)
Definition dict_block (l : list nat) (d : list nat) : list nat :=
  fst (fold_left (fun st j2 => let '(d, counter) := st in (set_nth j2 counter d, S counter)) l (d, 0)).
Definition dict_loop (ncharge : nat) (statesdm : list (list nat)) (d0 : list nat) : list nat :=
  fold_left (fun d j1 => dict_block (nth j1 statesdm []) d) (seq 0 ncharge) d0.

(** One call of add_elem (indexing.py 747-753, 930-937, 1132-1138): counter, b, bp, charge,
    dictq, conjq. *)
Record ev := mkEv { e_cnt : nat; e_b : nat; e_bp : nat; e_ch : nat; e_dict : bool; e_conj : bool }.

(** [self.ind_qn[b][i]]; by C05 the lookup succeeds for every state *)
Definition qn_at (qn : nat -> option (list Z)) (b i : nat) : Z :=
  match qn b with Some q => nth i q 0%Z | None => 0%Z end.
(** [self.qn_ind[(ch, sz, ssq, alpha)]] *)
Definition qn_state (qi : list Z -> option nat) (q : list Z) : nat :=
  match qi q with Some k => k | None => 0 end.

Section MapDM.
Variables (kd : kind) (ixs : ix) (qn : nat -> option (list Z)) (qi : list Z -> option nat).

(** spin partners of state b: [qn_ind[(b_ch, sz, b_ssq, b_alpha)]] (indexing.py 767, 952, 973) *)
Definition partner (b : nat) (sz : Z) : nat :=
  qn_state qi [qn_at qn b 0; sz; qn_at qn b 2; qn_at qn b 3].
(** [range(b_sz+2, b_ssq+1, 2)] *)
Definition partner_sz (b : nat) : list Z := range2 (qn_at qn b 1 + 2) (qn_at qn b 2 + 1).

(** indexing.py 760-771 / 945-956 / 1146-1157, body of the loop over diagonal elements *)
Definition diag_step (charge : nat) (st : nat * list ev) (b : nat) : nat * list ev :=
  let '(counter, evs) := st in
  match ixs with
  | IxSsq =>
      if (qn_at qn b 2 =? - qn_at qn b 1)%Z then
        (S counter, evs ++ mkEv counter b b charge true true ::
           map (fun sz => mkEv counter (partner b sz) (partner b sz) charge false true) (partner_sz b))
      else (counter, evs)
  | _ => (S counter, evs ++ [mkEv counter b b charge true true])
  end.
Definition diag_loop (ncharge : nat) (statesdm : list (list nat)) (st : nat * list ev) : nat * list ev :=
  fold_left (fun st charge => fold_left (diag_step charge) (nth charge statesdm []) st)
            (seq 0 ncharge) st.

(** indexing.py 959-980 (StateIndexingDM), body for the pair (b, bp) *)
Definition off_step_dm (charge : nat) (st : nat * list ev) (p : nat * nat) : nat * list ev :=
  let '(counter, evs) := st in
  let '(b, bp) := p in
  match ixs with
  | IxSz =>
      if (qn_at qn b 1 =? qn_at qn bp 1)%Z then
        (S counter, evs ++ [mkEv counter bp b charge false false; mkEv counter b bp charge true true])
      else (counter, evs)
  | IxSsq =>
      if ((qn_at qn b 1 =? qn_at qn bp 1) && (qn_at qn b 2 =? qn_at qn bp 2))%bool%Z then
        if (qn_at qn b 2 =? - qn_at qn b 1)%Z then
          (S counter, evs ++ [mkEv counter bp b charge false false; mkEv counter b bp charge true true]
             ++ flat_map (fun sz => [mkEv counter (partner bp sz) (partner b sz) charge false false;
                                     mkEv counter (partner b sz) (partner bp sz) charge false true])
                         (partner_sz b))
        else (counter, evs)
      else (counter, evs)
  | _ => (S counter, evs ++ [mkEv counter bp b charge false false; mkEv counter b bp charge true true])
  end.

(** indexing.py 1161-1179 (StateIndexingDMc) *)
Definition off_step_dmc (charge : nat) (st : nat * list ev) (p : nat * nat) : nat * list ev :=
  let '(counter, evs) := st in
  let '(b, bp) := p in
  match ixs with
  | IxSz =>
      if (qn_at qn b 1 =? qn_at qn bp 1)%Z then
        (S counter, evs ++ [mkEv counter b bp charge true true])
      else (counter, evs)
  | IxSsq =>
      if ((qn_at qn b 1 =? qn_at qn bp 1) && (qn_at qn b 2 =? qn_at qn bp 2))%bool%Z then
        if (qn_at qn b 2 =? - qn_at qn b 1)%Z then
          (S counter, evs ++ mkEv counter b bp charge true true ::
             map (fun sz => mkEv counter (partner b sz) (partner bp sz) charge false true) (partner_sz b))
        else (counter, evs)
      else (counter, evs)
  | _ => (S counter, evs ++ [mkEv counter b bp charge true true])
  end.

(** [itertools.combinations(l, 2)] and [itertools.permutations(l, 2)], in Python's order *)
Fixpoint combinations2 (l : list nat) : list (nat * nat) :=
  match l with
  | [] => []
  | x :: l' => map (fun y => (x, y)) l' ++ combinations2 l'
  end.
Definition permutations2 (l : list nat) : list (nat * nat) :=
  flat_map (fun i => flat_map (fun j => if i =? j then [] else [(nth i l 0, nth j l 0)])
                              (seq 0 (length l)))
           (seq 0 (length l)).

Definition off_loop (ncharge : nat) (statesdm : list (list nat)) (st : nat * list ev) : nat * list ev :=
  match kd with
  | KPauli => st
  | KDM => fold_left (fun st charge =>
             fold_left (off_step_dm charge) (combinations2 (nth charge statesdm [])) st)
             (seq 0 ncharge) st
  | KDMc => fold_left (fun st charge =>
             fold_left (off_step_dmc charge) (permutations2 (nth charge statesdm [])) st)
             (seq 0 ncharge) st
  end.
End MapDM.

(** Attributes written by set_statesdm / set_dictdm / set_mapdm.  The arrays mapdm0, booldm0,
    conjdm0 and the dictionary inddm0 are given by the recorded add_elem calls. *)
Record DMI := mkDMI {
  dm_kind : kind;
  dm_ncharge : nat;
  dm_statesdm : list (list nat);
  dm_npauli_ : nat; dm_ndm0_ : nat; dm_ndm1_ : nat;
  dm_lenlst : list nat;
  dm_shiftlst0 : list nat;
  dm_shiftlst1 : list nat;
  dm_dictdm : list nat;
  dm_log : list ev;
  dm_npauli : nat; dm_ndm0 : nat; dm_ndm0r : nat; dm_ndm1 : nat
}.

(** indexing.py 713-728, 888-907, 1090-1109 with 730-740, 909-923, 1111-1125 and set_mapdm.
    [statesdm] here already has the appended empty list (lines 722, 898, 1100). *)
Definition set_statesdm' (kd : kind) (ixs : ix) (qn : nat -> option (list Z)) (qi : list Z -> option nat)
           (ncharge : nat) (dict0 : list nat) (statesdm : list (list nat)) : DMI :=
  let len j := length (nth j statesdm []) in
  let npauli_ := sumn (map len (seq 0 ncharge)) in
  let ndm0_ := match kd with KPauli => 0 | _ => sumn (map (fun j => len j * len j) (seq 0 ncharge)) end in
  let ndm1_ := match kd with KPauli => 0 | _ => sumn (map (fun j => len j * len (S j)) (seq 0 (ncharge - 1))) end in
  let w0 := match kd with KPauli => len | _ => fun j => len j * len j end in
  let sh0 := shift_loop ncharge w0 (repeat 0 (ncharge + 1)) in
  let sh1 := shift_loop (ncharge - 1) (fun j => len j * len (S j)) (repeat 0 ncharge) in
  let dict := dict_loop ncharge statesdm dict0 in
  let '(npauli, log1) := diag_loop ixs qn qi ncharge statesdm (0, []) in
  let '(ndm0, log) := off_loop kd ixs qn qi ncharge statesdm (npauli, log1) in
  mkDMI kd ncharge statesdm npauli_ ndm0_ ndm1_ (map len (seq 0 ncharge)) sh0 sh1 dict log
        npauli ndm0 (npauli + 2 * (ndm0 - npauli)) ndm1_.

(** The call as the user sees it: the caller's list afterwards, and the new attributes.
    Pauli and DMc append to the caller's list object, DM appends to a copy (lines 721, 897, 1099). *)
Definition set_statesdm (kd : kind) (ixs : ix) (qn : nat -> option (list Z)) (qi : list Z -> option nat)
           (ncharge : nat) (dict0 : list nat) (lst : list (list nat)) : list (list nat) * DMI :=
  let extended := lst ++ [[]] in
  (match kd with KDM => lst | _ => extended end,
   set_statesdm' kd ixs qn qi ncharge dict0 extended).

(** get_ind_dm0 with maptype 0 (indexing.py 793-794, 1008-1010, 1207-1208) *)
Definition dm0_slot (dm : DMI) (b bp charge : nat) : nat :=
  match dm_kind dm with
  | KPauli => nth b (dm_dictdm dm) 0 + nth charge (dm_shiftlst0 dm) 0
  | _ => nth charge (dm_lenlst dm) 0 * nth b (dm_dictdm dm) 0 + nth bp (dm_dictdm dm) 0
         + nth charge (dm_shiftlst0 dm) 0
  end.
Definition dm0_size (dm : DMI) : nat :=
  match dm_kind dm with KPauli => dm_npauli_ dm | _ => dm_ndm0_ dm end.

Definition ev_slot (dm : DMI) (e : ev) : nat := dm0_slot dm (e_b e) (e_bp e) (e_ch e).

(** the arrays mapdm0, booldm0, conjdm0 after all add_elem calls *)
Definition mapdm0 (dm : DMI) : list Z :=
  fold_left (fun m e => set_nth (ev_slot dm e) (Z.of_nat (e_cnt e)) m) (dm_log dm)
            (repeat (-1)%Z (dm0_size dm)).
Definition booldm0 (dm : DMI) : list bool :=
  fold_left (fun m e => set_nth (ev_slot dm e) (e_dict e) m) (dm_log dm) (repeat false (dm0_size dm)).
Definition conjdm0 (dm : DMI) : list bool :=
  fold_left (fun m e => set_nth (ev_slot dm e) (e_conj e) m) (dm_log dm) (repeat false (dm0_size dm)).
(** inddm0 (not present for Pauli) *)
Definition inddm0 (dm : DMI) : list (nat * (nat * nat)) :=
  fold_left (fun d e => if e_dict e then dict_set Nat.eqb (e_cnt e) (e_b e, e_bp e) d else d)
            (dm_log dm) [].

(** get_ind_dm0 with maptype 1, 2, 3; None = IndexError *)
Definition get_ind_dm0 (dm : DMI) (b bp charge : nat) : option Z :=
  nth_error (mapdm0 dm) (dm0_slot dm b bp charge).
Definition get_bool_dm0 (dm : DMI) (b bp charge : nat) : option bool :=
  nth_error (booldm0 dm) (dm0_slot dm b bp charge).
Definition get_conj_dm0 (dm : DMI) (b bp charge : nat) : option bool :=
  nth_error (conjdm0 dm) (dm0_slot dm b bp charge).

(** get_ind_dm1 (indexing.py 1046, 1241) *)
Definition get_ind_dm1 (dm : DMI) (c b bcharge : nat) : nat :=
  nth bcharge (dm_lenlst dm) 0 * nth c (dm_dictdm dm) 0 + nth b (dm_dictdm dm) 0
  + nth bcharge (dm_shiftlst1 dm) 0.

(** Construction from a StateIndexing object (lines 705-710, 876-886, 1078-1088). *)
Definition dm_init (kd : kind) (si : SI) : list (list nat) * DMI :=
  set_statesdm kd (si_indexing si) (ind_qn si) (qn_ind si) (si_ncharge si)
               (repeat 0 (si_nmany si)) (si_chargelst si).

(** numbers of lines 877-878 (exact integers; Python computes them with floats) *)
Definition ndm0_tot (n : nat) : nat := fact (2 * n) / (fact n * fact n).
Definition ndm1_tot (n : nat) : nat := n * ndm0_tot n / (n + 1).

Example dm_ex_counts : let dm := snd (dm_init KDM (si_init 4 "charge")) in
  (dm_npauli_ dm, dm_ndm0_ dm, dm_ndm1_ dm, dm_npauli dm, dm_ndm0 dm, dm_ndm0r dm)
  = (16, 70, 56, 16, 43, 70).
Proof. vm_compute. reflexivity. Qed.
Example dm_ex_counts_sz : let dm := snd (dm_init KDM (si_init 4 "sz")) in
  (dm_npauli_ dm, dm_ndm0_ dm, dm_ndm1_ dm, dm_npauli dm, dm_ndm0 dm, dm_ndm0r dm)
  = (16, 70, 56, 16, 26, 36).
Proof. vm_compute. reflexivity. Qed.
Example dm_ex_counts_ssq : let dm := snd (dm_init KDM (si_init 4 "ssq")) in
  (dm_npauli_ dm, dm_ndm0_ dm, dm_ndm1_ dm, dm_npauli dm, dm_ndm0 dm, dm_ndm0r dm)
  = (16, 70, 56, 10, 15, 20).
Proof. vm_compute. reflexivity. Qed.

(** ** Call histories *)
(** [self.chargelst] replaced by (the mutated) list [cl] *)
Definition with_chargelst (si : SI) (cl : list (list nat)) : SI :=
  mkSI (si_nsingle si) (si_indexing si) (si_ncharge si) (si_nmany si) (si_chargelst_lin si) cl
       (si_szlst_lin si) (si_szlst si) (si_ssqlst si) (si_i si) (si_j si) (si_removed si) (si_nmany_ si).

(** [si.set_statesdm(si.chargelst)] (the constructors, use_all_states of builder/various.py 321,
    remove_fock_states 800-802 / 1048-1050 / 1243-1245): the list passed is the attribute itself,
    so what the call does to its argument it does to chargelst. *)
Definition call_use_all (kd : kind) (dict0 : list nat) (si : SI) : SI * DMI :=
  let '(cl, dm) := set_statesdm kd (si_indexing si) (ind_qn si) (qn_ind si) (si_ncharge si) dict0
                                (si_chargelst si) in
  (with_chargelst si cl, dm).
(** [si.set_statesdm(lst)] with the caller's own list *)
Definition call_set (kd : kind) (dm : DMI) (si : SI) (lst : list (list nat)) : SI * DMI :=
  (si, snd (set_statesdm kd (si_indexing si) (ind_qn si) (qn_ind si) (si_ncharge si) (dm_dictdm dm) lst)).
(** [si.remove_fock_states(lin)] of the three derived classes *)
Definition call_remove (kd : kind) (dm : DMI) (si : SI) (lin : list nat) : option (SI * DMI) :=
  option_map (call_use_all kd (dm_dictdm dm)) (remove_fock_states si lin).
(** the constructors (lines 705-710, 876-886, 1078-1088) *)
Definition call_init (kd : kind) (n : nat) (name : string) : SI * DMI :=
  call_use_all kd (repeat 0 (si_nmany (si_init n name))) (si_init n name).
