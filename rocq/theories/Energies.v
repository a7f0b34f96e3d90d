(** Many-body energies and their order:
    qmeq/qdot.py construct_Ea_manybody 165-214, set_Ea 937-939,
    qmeq/builder/various.py multiarray_sort 30-48, sort_eigenstates 51-82, construct_Ea_extended 161-237. *)
From Coq Require Import String List Arith Lia ZArith Bool QArith.
From Verif Require Import Base Bits Indexing IndexingProofs RemoveProofs Binom SsqProofs Qn Selection.
Import ListNotations.
Open Scope nat_scope.
Local Notation length := List.length.

(** A loop of assignments [a[k] = v]; None = IndexError, either of [a[k]] or of the value read ([snd w]). *)
Definition write_all {A} (l : list A) (ws : list (nat * option A)) : option (list A) :=
  fold_left (fun acc w =>
    match acc, snd w with
    | Some l, Some v => if fst w <? length l then Some (set_nth (fst w) v l) else None
    | _, _ => None
    end) ws (Some l).

(** *** construct_Ea_manybody *)
(** [valslst]: entries by charge, by charge and szind, or by charge, szind and ssqind (qdot.py 744-756) *)
Inductive Vals (A : Type) :=
| VCharge (v : list (list A))
| VSz (v : list (list (list A)))
| VSsq (v : list (list (list (list A)))).
Arguments VCharge {A} v.
Arguments VSz {A} v.
Arguments VSsq {A} v.

(** [for ind in range(len(block)): Ea[block[ind]] = vals[ind]] *)
Definition block_writes {A} (block : list nat) (vals : list A) : list (nat * option A) :=
  map (fun ind => (nth ind block 0, nth_error vals ind)) (seq 0 (length block)).

(** qdot.py 183-213; None = valslst is not of the shape of the indexing *)
Definition ea_writes {A} (si : SI) (v : Vals A) : option (list (nat * option A)) :=
  let n := si_nsingle si in
  match si_indexing si, v with
  | IxSz, VSz vs =>
      Some (flat_map (fun charge =>
        flat_map (fun sz =>
          let szind := Z.to_nat (sz_to_ind sz charge n) in
          block_writes (nth szind (nth charge (match si_szlst si with Some l => l | None => [] end) []) [])
                       (nth szind (nth charge vs []) []))
          (szrange charge n))
        (seq 0 (si_ncharge si)))
  | IxSsq, VSsq vs =>
      Some (flat_map (fun charge =>
        flat_map (fun sz =>
          let szind := Z.to_nat (sz_to_ind sz charge n) in
          flat_map (fun ssq =>
            let ssqind := Z.to_nat (ssq_to_ind ssq sz) in
            block_writes (nth ssqind (nth szind (nth charge (match si_ssqlst si with Some l => l | None => [] end) []) []) [])
                         (nth ssqind (nth szind (nth charge vs []) []) []))
            (ssqrange charge sz n))
          (szrange charge n))
        (seq 0 (si_ncharge si)))
  | IxLin, VCharge vs | IxCharge, VCharge vs =>
      Some (flat_map (fun charge => block_writes (nth charge (si_chargelst si) []) (nth charge vs []))
        (seq 0 (si_ncharge si)))
  | _, _ => None
  end.
Definition construct_Ea {A} (zero : A) (v : Vals A) (si : SI) : option (list A) :=
  match ea_writes si v with
  | None => None
  | Some ws => write_all (repeat zero (si_nmany si)) ws
  end.

(** *** construct_Ea_extended *)
(** Energies are rational numbers.  The loops are those of make_quantum_numbers, so the writes are given by
    [qn_pairs]: the number [q[j]] goes to column [sn] of one row; rows are independent.  A length mismatch
    (ValueError) is None. *)
Definition qn_row (si : SI) (len j : nat) : option (list Q) :=
  write_all (repeat 0%Q len) (map (fun p => (snd p, Some (inject_Z (nth j (fst p) 0%Z)))) (qn_pairs si)).
Fixpoint all_some {A} (l : list (option A)) : option (list A) :=
  match l with
  | [] => Some []
  | Some a :: r => option_map (cons a) (all_some r)
  | None :: _ => None
  end.
Definition arange (m : nat) : list Q := map (fun k => inject_Z (Z.of_nat k)) (seq 0 m).
Definition qn_rows (si : SI) : nat := match si_indexing si with IxSsq => 3 | IxSz => 2 | _ => 1 end.
Definition construct_ext (si : SI) (E : list Q) : option (list (list Q)) :=
  if length E =? si_nmany si then
    option_map (fun rows => E :: rows ++ [arange (si_nmany si)])
      (all_some (map (qn_row si (length E)) (seq 0 (qn_rows si))))
  else None.

(** *** np.lexsort, multiarray_sort *)
Fixpoint lex_le (x y : list Q) : bool :=
  match x, y with
  | a :: x', b :: y' => if q_lt a b then true else if q_lt b a then false else lex_le x' y'
  | _, _ => true
  end.
Section Sort.
Variable le : nat -> nat -> bool.
Fixpoint insert (x : nat) (l : list nat) : list nat :=
  match l with
  | [] => [x]
  | y :: r => if le x y then x :: l else y :: insert x r
  end.
(** stable *)
Definition isort (l : list nat) : list nat := fold_right insert [] l.
End Sort.
(** np.lexsort(keys): the last key is the primary one; None = no keys given (TypeError) *)
Definition lexsort (keys : list (list Q)) : option (list nat) :=
  match keys with
  | [] => None
  | k :: _ =>
      let at_ i := map (fun row => nth i row 0%Q) (rev keys) in
      Some (isort (fun i j => lex_le (at_ i) (at_ j)) (seq 0 (length k)))
  end.
Definition multiarray_sort (arr : list (list Q)) (srt : list Z) : option (list (list Q)) :=
  match all_some (map (fun i => py_nth arr i) (rev srt)) with
  | None => None
  | Some keys => option_map (fun ind => map (fun row => map (fun i => nth i row 0%Q) ind) arr) (lexsort keys)
  end.

(** *** sort_eigenstates *)
(** [qd.Ea_ext] and [si.states_order] *)
Record Sorted_ := mkSorted { so_ext : option (list (list Q)); so_order : list nat }.
(** np.array(..., dtype=int) truncates *)
Definition to_index (q : Q) : nat := Z.to_nat (Z.quot (Qnum q) (Zpos (Qden q))).
(** Returns also the caller's list after the call: [srt.append(-1)] changes it. *)
Definition sort_eigenstates (si : SI) (E : list Q) (srt : option (list Z)) (st : Sorted_)
  : option (Sorted_ * option (list Z)) :=
  match srt with
  | None => Some (mkSorted (so_ext st) (seq 0 (si_nmany si)), None)
  | Some keys =>
      let ext := match so_ext st with
                 | None => construct_ext si E
                 | Some (row0 :: rows) => if length E =? length row0 then Some (E :: rows) else None
                 | Some [] => None
                 end in
      match ext with
      | None => None
      | Some ext =>
          let keys' := keys ++ [(-1)%Z] in
          match multiarray_sort ext keys' with
          | None => None
          | Some srtd =>
              match py_nth srtd (-1)%Z with
              | None => None
              | Some row => Some (mkSorted (Some ext) (map to_index row), Some keys')
              end
          end
      end
  end.

(** Builder.remove_fock_states (builder_base.py 288-292): [qd._init_hamiltonian] resets [Ea_ext] (qdot.py 758-759);
    [states_order] is left as it is. *)
Inductive SortOp := OpSort (E : list Q) (srt : option (list Z)) | OpRemove (lin : list nat).
Definition sort_step (st : option (SI * Sorted_)) (op : SortOp) : option (SI * Sorted_) :=
  match st with
  | None => None
  | Some (si, s) =>
      match op with
      | OpSort E srt => option_map (fun r => (si, fst r)) (sort_eigenstates si E srt s)
      | OpRemove lin => option_map (fun si' => (si', mkSorted None (so_order s))) (remove_many si [lin])
      end
  end.
(** state after construction: indexing.py 524, qdot.py 759 *)
Definition sort_init (si : SI) : SI * Sorted_ := (si, mkSorted None (seq 0 (si_nmany si))).
Definition sort_run (si : SI) (ops : list SortOp) : option (SI * Sorted_) :=
  fold_left sort_step ops (Some (sort_init si)).
