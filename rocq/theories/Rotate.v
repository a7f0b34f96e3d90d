(** Rotation of the coupling matrices to the eigenbasis of the dot:
    qmeq/leadstun.py construct_full_pmtr 68-120, rotate_Tba 123-215; qmeq/baths.py elph_rotate_Vbbp 64-129.
    Numbers are complex numbers over an arbitrary ring.  The eigenvector matrices [vecslst] are arbitrary: nothing
    is assumed about the diagonalisation routine. *)
From Coq Require Import String List Arith Lia ZArith Bool.
From Verif Require Import Base Bits Indexing Qn CRing Fock Operators Layout Rates.
Import ListNotations.
Open Scope nat_scope.
Local Notation length := List.length.

Section Rotate.
Variable K : CRing.
Local Notation C := (Cx K).
Local Open Scope rng_scope.

(** ** numpy arrays with two indices *)
Definition mat := nat -> nat -> C.
Definition mzeros : mat := fun _ _ => 0.
(** [np.dot(a, b)] with inner dimension [n] *)
Definition ndot (n : nat) (a b : mat) : mat := fun i j => rsum (fun k => a i k * b k j) (seq 0 n).
(** [a.conj().T] *)
Definition ct (a : mat) : mat := fun i j => conj (a j i).
(** [m[i1:][:, i3:]] *)
Definition slice (m : mat) (i1 i3 : nat) : mat := fun x y => m (i1 + x)%nat (i3 + y)%nat.
(** [m[i1:i2][:, i3:i4] = f] *)
Definition wblock (m : mat) (i1 i2 i3 i4 : nat) (f : mat) : mat := fun i j =>
  if ((i1 <=? i) && (i <? i2) && (i3 <=? j) && (j <? i4))%nat%bool then f (i - i1)%nat (j - i3)%nat else m i j.
(** [np.concatenate(l, axis=1)]; every array comes with its number of columns *)
Fixpoint hcat (l : list (nat * mat)) : mat := fun x y =>
  match l with
  | [] => 0
  | (w, m) :: r => if (y <? w)%nat then m x y else hcat r x (y - w)%nat
  end.

(** [vecslst]: by charge, by charge and szind, or by charge, szind and ssqind (qdot.py 744-756) *)
Inductive Vecs :=
| VeCharge (v : nat -> mat)
| VeSz (v : nat -> nat -> mat)
| VeSsq (v : nat -> nat -> list (nat * mat)).

Variable si : SI.
Definition szl : list (list (list nat)) := match si_szlst si with Some l => l | None => [] end.
Definition ssql : list (list (list (list nat))) := match si_ssqlst si with Some l => l | None => [] end.
Definition szi (charge : nat) (sz : Z) : nat := Z.to_nat (sz_to_ind sz charge (si_nsingle si)).

(** ** construct_full_pmtr *)
(** [for j1, j2: pmtr[rows[j1], cols[j2]] = m[j1, j2]] *)
Definition pm_block (rows cols : list nat) (m : mat) : list ((nat * nat) * C) :=
  map (fun p => ((nth (fst p) rows 0%nat, nth (snd p) cols 0%nat), m (fst p) (snd p)))
      (list_prod (seq 0 (length rows)) (seq 0 (length cols))).
Definition pm_writes (v : Vecs) : option (list ((nat * nat) * C)) :=
  let n := si_nsingle si in
  match si_indexing si, v with
  | IxSz, VeSz v =>
      Some (flat_map (fun charge => flat_map (fun sz =>
        let szind := szi charge sz in
        let b := nth szind (nth charge szl []) [] in
        pm_block b b (v charge szind)) (szrange charge n)) (seq 0 (si_ncharge si)))
  | IxSsq, VeSsq v =>
      Some (flat_map (fun charge => flat_map (fun sz =>
        let szind := szi charge sz in
        flat_map (fun ssq =>
          let ssqind := Z.to_nat (ssq_to_ind ssq sz) in
          pm_block (nth szind (nth charge szl []) []) (nth ssqind (nth szind (nth charge ssql []) []) [])
                   (snd (nth ssqind (v charge szind) (0%nat, mzeros))))
          (ssqrange charge sz n)) (szrange charge n)) (seq 0 (si_ncharge si)))
  | IxLin, VeCharge v | IxCharge, VeCharge v =>
      Some (flat_map (fun charge =>
        let b := nth charge (si_chargelst si) [] in pm_block b b (v charge)) (seq 0 (si_ncharge si)))
  | _, _ => None
  end.
Definition full_pmtr (v : Vecs) : option mat :=
  option_map (fun ws => let m := run_writes eq2 ws (fun _ => 0) in fun i j => m (i, j)) (pm_writes v).

(** ** Blocks *)
(** [si.chargelst[c]], [si.szlst[c][sz_to_ind(sz, c)]]; None = IndexError *)
Definition blk_charge (c : nat) : option (list nat) := nth_error (si_chargelst si) c.
Definition blk_sz (x : nat * Z) : option (list nat) :=
  match nth_error szl (fst x) with
  | Some row => py_nth row (sz_to_ind (snd x) (fst x) (si_nsingle si))
  | None => None
  end.

(** One pass of the loop body: blocks [b1] (i1..i2) and [b2] (i3..i4) with eigenvectors [v1], [v2].
    [strict]: no test for empty blocks ('ssq'), so that [b1[0]] raises. *)
Definition rot_pair (strict : bool) (T0 : mat) (b1 b2 : list nat) (v1 v2 : mat) (T : mat) : option mat :=
  match b1, b2 with
  | i1 :: _, i3 :: _ =>
      let i2 := S (last b1 0%nat) in
      let i4 := S (last b2 0%nat) in
      let T' := wblock T i1 i2 i3 i4
                  (ndot (i2 - i1) (ct v1) (ndot (i4 - i3) (slice T0 i1 i3) v2)) in
      Some (wblock T' i3 i4 i1 i2 (ct (slice T' i1 i3)))
  | _, _ => if strict then None else Some T
  end.
Definition rot_diag (strict : bool) (V0 : mat) (b : list nat) (v : mat) (V : mat) : option mat :=
  match b with
  | i1 :: _ =>
      let i2 := S (last b 0%nat) in
      Some (wblock V i1 i2 i1 i2 (ndot (i2 - i1) (ct v) (ndot (i2 - i1) (slice V0 i1 i1) v)))
  | _ => if strict then None else Some V
  end.

(** The loops.  An index out of range ends in None. *)
Definition rot_pairs {X} (strict : bool) (blk : X -> option (list nat)) (vec : X -> mat) (T0 : mat)
                     (prs : list (X * X)) : option mat :=
  fold_left (fun acc p => match acc, blk (fst p), blk (snd p) with
    | Some T, Some b1, Some b2 => rot_pair strict T0 b1 b2 (vec (fst p)) (vec (snd p)) T
    | _, _, _ => None end) prs (Some mzeros).
Definition rot_diags {X} (strict : bool) (blk : X -> option (list nat)) (vec : X -> mat) (V0 : mat)
                     (cells : list X) : option mat :=
  fold_left (fun acc x => match acc, blk x with
    | Some V, Some b => rot_diag strict V0 b (vec x) V
    | _, _ => None end) cells (Some mzeros).

(** [range(si.ncharge-1)] with neighbours, 198-206 *)
Definition charge_pairs : list (nat * nat) := map (fun c => (c, S c)) (seq 0 (si_ncharge si - 1)).
(** 163-171 and 180-188; [up] is [l < si.nleads//2] *)
Definition sz_pairs (up : bool) : list ((nat * Z) * (nat * Z)) :=
  flat_map (fun charge =>
    let rng := szrange charge (si_nsingle si) in
    let rng := if (si_ncharge si / 2 <=? charge)%nat then (if up then removelast rng else tl rng) else rng in
    let s : Z := if up then 1%Z else (-1)%Z in
    map (fun sz => ((charge, sz), (S charge, (sz + s)%Z))) rng) (seq 0 (si_ncharge si - 1)).

Definition vec_sz (v : nat -> nat -> mat) (x : nat * Z) : mat := v (fst x) (szi (fst x) (snd x)).
Definition vec_ssq (v : nat -> nat -> list (nat * mat)) (x : nat * Z) : mat := hcat (v (fst x) (szi (fst x) (snd x))).

(** rotate_Tba for lead [l]; each pass of the loops only touches [Tba[l]], so leads are taken one by one.
    None = the arguments do not have the shape the branch needs, or an exception *)
Definition rotate_Tba (nleads : nat) (indexingp : ix) (v : Vecs) (T0 : nat -> mat) (l : nat) : option mat :=
  if (l <? nleads)%nat then
    let up := (l <? nleads / 2)%nat in
    match indexingp, v with
    | IxLin, _ => option_map (fun P => ndot (si_nmany si) (ct P) (ndot (si_nmany si) (T0 l) P)) (full_pmtr v)
    | IxSz, VeSz v => rot_pairs false blk_sz (vec_sz v) (T0 l) (sz_pairs up)
    | IxSsq, VeSsq v => rot_pairs true blk_sz (vec_ssq v) (T0 l) (sz_pairs up)
    | IxCharge, VeCharge v => rot_pairs false blk_charge v (T0 l) charge_pairs
    | _, _ => None
    end
  else None.

(** elph_rotate_Vbbp for bath [l] *)
Definition rotate_Vbbp (nbaths : nat) (indexingp : ix) (v : Vecs) (V0 : nat -> mat) (l : nat) : option mat :=
  if (l <? nbaths)%nat then
    match indexingp, v with
    | IxLin, _ => option_map (fun P => ndot (si_nmany si) (ct P) (ndot (si_nmany si) (V0 l) P)) (full_pmtr v)
    | IxSz, VeSz v => rot_diags false blk_sz (vec_sz v) (V0 l) (sz_cells (si_nsingle si) (si_ncharge si))
    | IxSsq, VeSsq v => rot_diags true blk_sz (vec_ssq v) (V0 l) (sz_cells (si_nsingle si) (si_ncharge si))
    | IxCharge, VeCharge v => rot_diags false blk_charge v (V0 l) (seq 0 (si_ncharge si))
    | _, _ => None
    end
  else None.
End Rotate.
