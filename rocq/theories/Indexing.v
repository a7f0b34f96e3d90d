(** Model of qmeq/indexing.py lines 56-666: state lists, class StateIndexing,
    remove_fock_states, quantum-number dictionaries. *)
From Coq Require Import String List Arith Lia ZArith Bool.
From Verif Require Import Base Bits.
Import ListNotations.
Open Scope nat_scope.

(** indexing.py 56-77 construct_chargelst *)
Definition construct_chargelst (nsingle : nat) : list (list nat) :=
  let nmany := 2 ^ nsingle in
  fold_left
    (fun chargelst j1 =>
       let state := integer_to_binarylist j1 nsingle in
       upd_nth (charge_of state) (fun l => l ++ [j1]) chargelst)
    (seq 0 nmany) (repeat [] (nsingle + 1)).

(** [min(charge, nsingle-charge)], indexing.py 98, 118, 213 *)
Definition szmax (charge nsingle : nat) : Z :=
  Z.min (Z.of_nat charge) (Z.of_nat nsingle - Z.of_nat charge).

(** indexing.py 80-99 sz_to_ind: [int((szmax+sz)/2)], [int] truncates towards zero *)
Definition sz_to_ind (sz : Z) (charge nsingle : nat) : Z :=
  Z.quot (szmax charge nsingle + sz) 2.

(** Python [range(lo, hi, 2)] *)
Definition range2 (lo hi : Z) : list Z :=
  map (fun k => (lo + 2 * Z.of_nat k)%Z) (seq 0 (Z.to_nat ((hi - lo + 1) / 2))).

(** indexing.py 102-120 szrange *)
Definition szrange (charge nsingle : nat) : list Z :=
  range2 (- szmax charge nsingle) (szmax charge nsingle + 1).

(** indexing.py 123-144 empty_szlst (noneq=False) *)
Definition empty_szlst (nsingle : nat) : list (list (list nat)) :=
  map (fun i => map (fun _ => []) (szrange i nsingle)) (seq 0 (nsingle + 1)).

(** indexing.py 170: sz of an occupation list, [sum(state[0:n/2]) - sum(state[n/2:n])] *)
Definition sz_of (nsingle : nat) (state : list bool) : Z :=
  (Z.of_nat (charge_of (firstn (Nat.div2 nsingle) state))
   - Z.of_nat (charge_of (skipn (Nat.div2 nsingle) (firstn nsingle state))))%Z.

(** indexing.py 147-173 construct_szlst; the list index is shown non-negative and in range below *)
Definition construct_szlst (nsingle : nat) : list (list (list nat)) :=
  let nmany := 2 ^ nsingle in
  fold_left
    (fun szlst j1 =>
       let state := integer_to_binarylist j1 nsingle in
       let charge := charge_of state in
       let sz := sz_of nsingle state in
       let szind := sz_to_ind sz charge nsingle in
       upd_nth charge (upd_nth (Z.to_nat szind) (fun l => l ++ [j1])) szlst)
    (seq 0 nmany) (empty_szlst nsingle).

(** indexing.py 176-192 ssq_to_ind *)
Definition ssq_to_ind (ssq sz : Z) : Z := Z.quot (ssq - Z.abs sz) 2.

(** indexing.py 195-214 ssqrange *)
Definition ssqrange (charge : nat) (sz : Z) (nsingle : nat) : list Z :=
  range2 (Z.abs sz) (szmax charge nsingle + 1).

(** indexing.py 217-239 empty_ssqlst (noneq=False) *)
Definition empty_ssqlst (nsingle : nat) : list (list (list (list nat))) :=
  map (fun i => map (fun j => map (fun _ => []) (ssqrange i j nsingle)) (szrange i nsingle))
      (seq 0 (nsingle + 1)).

(** indexing.py 265-272: number of multiplets.  Row [j1]: a list of zeros in which position
    [ssq_to_ind(ssqr[lssqr-j2-1], 0)] is set for each j2. *)
Definition ssqcount_row (szlst_row : list (list nat)) (charge nsingle : nat) : list Z :=
  let ssqr := ssqrange charge (Z.of_nat charge mod 2) nsingle in
  let lssqr := List.length ssqr in
  fold_left
    (fun row j2 =>
       let ssqind := ssq_to_ind (nth (lssqr - j2 - 1) ssqr 0%Z) 0 in
       set_nth (Z.to_nat ssqind)
         (Z.of_nat (List.length (nth j2 szlst_row []))
          - (if (0 <? j2)%nat then Z.of_nat (List.length (nth (j2 - 1)%nat szlst_row [])) else 0))%Z
         row)
    (seq 0 lssqr) (map (fun _ => 0%Z) ssqr).

Definition ssqcount (szlst : list (list (list nat))) (nsingle : nat) : list (list Z) :=
  map (fun charge => ssqcount_row (nth charge szlst []) charge nsingle) (seq 0 (nsingle + 1)).

(** indexing.py 281-283: [for j1 in range(count): ssqlst[..].append(ind); ind += 1] for one cell *)
Definition ssq_fill_cell (charge szind ssqind : nat) (count : Z)
           (st : list (list (list (list nat))) * nat) : list (list (list (list nat))) * nat :=
  fold_left
    (fun st _ =>
       let '(ssqlst, ind) := st in
       (upd_nth charge (upd_nth szind (upd_nth ssqind (fun l => l ++ [ind]))) ssqlst, S ind))
    (seq 0 (Z.to_nat count)) st.

(** indexing.py 242-284 construct_ssqlst *)
Definition construct_ssqlst (szlst : list (list (list nat))) (nsingle : nat)
  : list (list (list (list nat))) :=
  let cnt := ssqcount szlst nsingle in
  fst
    (fold_left
       (fun st charge =>
          fold_left
            (fun st sz =>
               let szind := Z.to_nat (sz_to_ind sz charge nsingle) in
               fold_left
                 (fun st ssq =>
                    let ssqind := Z.to_nat (ssq_to_ind ssq sz) in
                    let ssqind2 := Z.to_nat (ssq_to_ind ssq 0) in
                    ssq_fill_cell charge szind ssqind (nth ssqind2 (nth charge cnt []) 0%Z) st)
                 (ssqrange charge sz nsingle) st)
            (szrange charge nsingle) st)
       (seq 0 (nsingle + 1)) (empty_ssqlst nsingle, 0)).

(** indexing.py 287-300 flatten *)
Definition flatten {A} (lst : list (list A)) : list A := List.concat lst.

(** indexing.py 303-323 enum_chargelst: block [j1] becomes [range(counter1, counter2)].
    The loop over positions with a running counter is the recursion [enum_from] of Base. *)
Definition enum_chargelst (chargelst_lin : list (list nat)) : list (list nat) :=
  enum_from 0 chargelst_lin.

(** indexing.py 326-349 enum_szlst, same with two levels.  Every cell of the fresh
    [empty_szlst] is overwritten because szlst_lin has the same shape, so the result is
    built directly. *)
Fixpoint enum2_from (c : nat) (L : list (list (list nat))) : list (list (list nat)) :=
  match L with
  | [] => []
  | l :: L' => enum_from c l :: enum2_from (c + total l) L'
  end.
Definition enum_szlst (szlst_lin : list (list (list nat))) : list (list (list nat)) :=
  enum2_from 0 szlst_lin.

(** indexing.py 352-369 make_inverse_map ([None] appears only later, in remove_fock_states) *)
Definition set_inverse (lst : list nat) (j : list (option nat)) : list (option nat) :=
  fold_left (fun j j1 => set_nth (nth j1 lst 0) (Some j1) j) (seq 0 (List.length lst)) j.
Definition make_inverse_map (lst : list nat) : list (option nat) :=
  set_inverse lst (repeat (Some 0) (List.length lst)).

(** The four values of [self.indexing] after construction. *)
Inductive ix := IxLin | IxCharge | IxSz | IxSsq.

Definition ix_eqb (a b : ix) : bool :=
  match a, b with
  | IxLin, IxLin | IxCharge, IxCharge | IxSz, IxSz | IxSsq, IxSsq => true
  | _, _ => false
  end.

(** Attributes of StateIndexing used in the model (indexing.py 420-528). *)
Record SI := mkSI {
  si_nsingle : nat;
  si_indexing : ix;
  si_ncharge : nat;
  si_nmany : nat;
  si_chargelst_lin : list (list nat);          (* unused (empty) for 'Lin' *)
  si_chargelst : list (list nat);
  si_szlst_lin : option (list (list (list nat)));
  si_szlst : option (list (list (list nat)));
  si_ssqlst : option (list (list (list (list nat))));
  si_i : list nat;
  si_j : list (option nat);
  si_removed : option (list bool);
  si_nmany_ : nat
}.

Definition ix_of (indexing : string) (nsingle : nat) : ix :=
  if String.eqb indexing "charge" then IxCharge
  else if (String.eqb indexing "sz" || String.eqb indexing "ssq")%bool && Nat.even nsingle
       then (if String.eqb indexing "ssq" then IxSsq else IxSz)
  else IxLin.

(** indexing.py 465-528 StateIndexing.__init__ (the branches of 493-519; the odd-nsingle branch,
    'Lin' and the unknown-name branch all end in 'Lin'). *)
Definition si_init (nsingle : nat) (indexing : string) : SI :=
  let nmany := 2 ^ nsingle in
  let chargelst_c := construct_chargelst nsingle in
  match ix_of indexing nsingle with
  | IxCharge =>
      let i := flatten chargelst_c in
      mkSI nsingle IxCharge (nsingle + 1) nmany chargelst_c (enum_chargelst chargelst_c)
           None None None i (make_inverse_map i) None nmany
  | IxLin =>
      let i := seq 0 nmany in
      mkSI nsingle IxLin (nsingle + 1) nmany [] chargelst_c
           None None None i (make_inverse_map i) None nmany
  | ixs =>
      let szlst_lin := construct_szlst nsingle in
      let szlst := enum_szlst szlst_lin in
      let i := flatten (flatten szlst_lin) in
      mkSI nsingle ixs (nsingle + 1) nmany chargelst_c (enum_chargelst chargelst_c)
           (Some szlst_lin) (Some szlst)
           (match ixs with IxSsq => Some (construct_ssqlst szlst nsingle) | _ => None end)
           i (make_inverse_map i) None nmany
  end.

(** indexing.py 530-551 get_state (linq=False, strq=False); None = IndexError *)
Definition get_state (si : SI) (ind : nat) : option (list bool) :=
  option_map (fun k => integer_to_binarylist k (si_nsingle si)) (nth_error (si_i si) ind).

(** Python value of [get_ind]: an index, the object None, or an exception. *)
Inductive ind_result := Ind (k : nat) | IndNone | IndRaise.

(** indexing.py 553-572 get_ind (linq=False) *)
Definition get_ind (si : SI) (state : list bool) : ind_result :=
  match nth_error (si_j si) (binarylist_to_integer state) with
  | Some (Some k) => Ind k
  | Some None => IndNone
  | None => IndRaise
  end.

(** indexing.py 574-607 get_lst (the call without charge is not modelled); None = exception *)
Definition get_lst (si : SI) (charge : nat) (sz ssq : option Z) : option (list nat) :=
  match sz with
  | None => nth_error (si_chargelst si) charge
  | Some z =>
      match si_szlst si, ssq with
      | Some szlst, None =>
          match nth_error szlst charge with
          | Some row => py_nth row (sz_to_ind z charge (si_nsingle si))
          | None => None
          end
      | Some _, Some q =>
          match si_ssqlst si with
          | Some ssqlst =>
              match nth_error ssqlst charge with
              | Some row =>
                  match py_nth row (sz_to_ind z charge (si_nsingle si)) with
                  | Some cell => py_nth cell (ssq_to_ind q z)
                  | None => None
                  end
              | None => None
              end
          | None => nth_error (si_chargelst si) charge
          end
      | None, _ => nth_error (si_chargelst si) charge
      end
  end.

(** *** remove_fock_states *)

(** indexing.py 632-636 / 649-653: keep the states not removed, set [j] to None for the others *)
Definition keep_block (removed : list bool) (block : list nat) (j : list (option nat))
  : list nat * list (option nat) :=
  fold_left
    (fun st j1 =>
       let '(kept, j) := st in
       if nth j1 removed false then (kept, set_nth j1 None j) else (kept ++ [j1], j))
    block ([], j).

(** indexing.py 630-637 loop over the charge blocks *)
Definition keep_blocks (removed : list bool) (L : list (list nat)) (j : list (option nat))
  : list (list nat) * list (option nat) :=
  fold_left
    (fun st block =>
       let '(acc, j) := st in
       let '(kept, j') := keep_block removed block j in
       (acc ++ [kept], j'))
    L ([], j).

(** indexing.py 644-655 loop over charge and sz blocks *)
Definition keep_blocks2 (removed : list bool) (L : list (list (list nat))) (j : list (option nat))
  : list (list (list nat)) * list (option nat) :=
  fold_left
    (fun st row =>
       let '(acc, j) := st in
       let '(row', j') := keep_blocks removed row j in
       (acc ++ [row'], j'))
    L ([], j).

(** indexing.py 624-625 *)
Definition mark_removed (lin : list nat) (removed : list bool) : list bool :=
  fold_left (fun r ind => set_nth ind true r) lin removed.

(** indexing.py 609-666.  [None] stands for the IndexError of line 625 (index >= 2^nsingle).
    Line 642: in Python the sz loop runs over [szrange] and [sz_to_ind]; this visits the rows of
    szlst_lin[charge] in order (lemma [sz_to_ind_szrange]). *)
Definition remove_fock_states (si : SI) (lin : list nat) : option SI :=
  match si_indexing si with
  | IxSsq => Some si
  | ixs =>
      let removed0 := match si_removed si with
                      | None => repeat false (si_nmany si)
                      | Some r => r
                      end in
      if forallb (fun k => k <? List.length removed0) lin then
        let removed := mark_removed lin removed0 in
        let nmany := si_nmany_ si - sumn (map b2n removed) in
        let clin0 := match ixs with IxLin => si_chargelst si | _ => si_chargelst_lin si end in
        let '(clin, j1) := keep_blocks removed clin0 (si_j si) in
        match ixs with
        | IxSz =>
            match si_szlst_lin si with
            | None => None
            | Some szlin0 =>
                let '(szlin, j2) := keep_blocks2 removed szlin0 j1 in
                let i := flatten (flatten szlin) in
                Some (mkSI (si_nsingle si) ixs (si_ncharge si) nmany clin (enum_chargelst clin)
                           (Some szlin) (Some (enum_szlst szlin)) (si_ssqlst si)
                           i (set_inverse i j2) (Some removed) (si_nmany_ si))
            end
        | _ =>
            let i := flatten clin in
            (* for 'Lin' the attribute chargelst_lin does not exist; kept empty *)
            Some (mkSI (si_nsingle si) ixs (si_ncharge si) nmany
                       (match ixs with IxLin => [] | _ => clin end) (enum_chargelst clin)
                       (si_szlst_lin si) (si_szlst si) (si_ssqlst si)
                       i (set_inverse i j1) (Some removed) (si_nmany_ si))
        end
      else None
  end.

(** A history of removal calls. *)
Fixpoint remove_many (si : SI) (ops : list (list nat)) : option SI :=
  match ops with
  | [] => Some si
  | lin :: ops' =>
      match remove_fock_states si lin with
      | Some si' => remove_many si' ops'
      | None => None
      end
  end.

(** *** Examples against the values in qmeq/tests/test_indexing.py (nsingle = 4) *)
Example chargelst4 : construct_chargelst 4 =
  [[0]; [1; 2; 4; 8]; [3; 5; 6; 9; 10; 12]; [7; 11; 13; 14]; [15]].
Proof. vm_compute. reflexivity. Qed.
Example szlst4 : construct_szlst 4 =
  [[[0]]; [[1; 2]; [4; 8]]; [[3]; [5; 6; 9; 10]; [12]]; [[7; 11]; [13; 14]]; [[15]]].
Proof. vm_compute. reflexivity. Qed.
Example ssqlst4 : construct_ssqlst (enum_szlst (construct_szlst 4)) 4 =
  [[[[0]]]; [[[1; 2]]; [[3; 4]]]; [[[5]]; [[6; 7; 8]; [9]]; [[10]]];
   [[[11; 12]]; [[13; 14]]]; [[[15]]]].
Proof. vm_compute. reflexivity. Qed.
Example enum_sz4 : enum_szlst (construct_szlst 4) =
  [[[0]]; [[1; 2]; [3; 4]]; [[5]; [6; 7; 8; 9]; [10]]; [[11; 12]; [13; 14]]; [[15]]].
Proof. vm_compute. reflexivity. Qed.
