(** The energy grid of the 2vN approach and interpolation on it.
    qmeq/approach/base/neumann2.py make_Ek_grid 128-150, determine_emin_emax 152-179, determine_grid_ext 181-201,
    determine_phi1_phi0 241-270, TermsCalculator2vN.func_2vN 638-673, get_at_k1 675-712. *)
From Coq Require Import List Arith Lia ZArith Reals.
From Verif Require Import Base DMIndex CRing Layout Hilbert.
Import ListNotations.
Local Notation Cr := (Cx RRing).
Local Open Scope R_scope.

(** ** numpy functions *)
(** np.linspace *)
Definition linspace (a b : R) (n : nat) : list R := map (fun i => a + INR i * ((b - a) / INR (n - 1))) (seq 0 n).
(** np.arange: ceil((stop - start)/step) values *)
Definition ceil (x : R) : Z := (1 - up (- x))%Z.
Definition arange (start stop step : R) : list R := map (fun i => start + INR i * step) (seq 0 (Z.to_nat (ceil ((stop - start) / step)))).
(** np.sort *)
Fixpoint insert (x : R) (l : list R) : list R :=
  match l with [] => [x] | y :: l' => if Rle_dec x y then x :: l else y :: insert x l' end.
Definition np_sort (l : list R) : list R := fold_right insert [] l.
(** np.min, np.max, and Python's min and max of a non-empty list *)
Definition min_l (x : R) (l : list R) : R := fold_left Rmin l x.
Definition max_l (x : R) (l : list R) : R := fold_left Rmax l x.

(** ** The grid *)
(** funcp.dmin, funcp.dmax and Ek_grid *)
Record Grid := mkGrid { g_dmin : R; g_dmax : R; g_Ek : list R }.
(** make_Ek_grid 128-150; [dlst] has a row for each lead.  [None]: kpnt was not given.  The second component: the calculation has
    to be restarted if it has begun (143-145). *)
Definition make_Ek_grid (kpnt : option nat) (dlst : list (R * R)) (g : Grid) : option (Grid * bool) :=
  match kpnt with
  | None => None
  | Some n =>
    match concat (map (fun d => [fst d; snd d]) dlst) with
    | [] => Some (g, false)
    | x :: l =>
      let dmin := min_l x l in let dmax := max_l x l in
      if Req_EM_T (nth 0 (g_Ek g) 0) dmin then
        if Req_EM_T (last (g_Ek g) 0) dmax then
          if Nat.eqb (length (g_Ek g)) n then Some (g, false) else Some (mkGrid dmin dmax (linspace dmin dmax n), true)
        else Some (mkGrid dmin dmax (linspace dmin dmax n), true)
      else Some (mkGrid dmin dmax (linspace dmin dmax n), true)
    end
  end.

(** determine_emin_emax 165-179 *)
Definition charges2 (L : Lay) : list Z := map Z.of_nat (seq 0 (ly_ncharge L - 2)).
Definition elst (L : Lay) (E : nat -> R) (dmin dmax : R) : list R :=
  flat_map (fun c => flat_map (fun p => [dmax - E (fst p) + E (snd p); dmin - E (fst p) + E (snd p)])
    (list_prod (states L c) (states L c))) (charges L) ++
  flat_map (fun c => flat_map (fun p => [dmin + E (fst p) - E (snd p); dmax + E (fst p) - E (snd p)])
    (list_prod (states L (c + 2)) (states L c))) (charges2 L).
Definition emax (L : Lay) (E : nat -> R) (dmin dmax : R) : R := max_l dmin (dmax :: elst L E dmin dmax).
Definition emin (L : Lay) (E : nat -> R) (dmin dmax : R) : R := min_l dmin (dmax :: elst L E dmin dmax).

(** determine_grid_ext 191-201: Ek_grid_ext, kpnt_left, kpnt_right *)
Definition grid_ext (Ek : list R) (dmin dmax emin_ emax_ ext_fct : R) : list R * nat * nat :=
  let step := nth 1 Ek 0 - nth 0 Ek 0 in
  let emin := ext_fct * (emin_ - dmin) + dmin in
  let emax := ext_fct * (emax_ - dmax) + dmax in
  let ext_left := np_sort (map Ropp (arange (- dmin + step) (- emin + step) step)) in
  let ext_right := arange (dmax + step) (emax + step) step in
  (ext_left ++ Ek ++ ext_right, length ext_left, length ext_right).

(** ** Interpolation *)
(** int(x) for x >= 0 *)
Definition int_ (x : R) : nat := Z.to_nat (Int_part x).
(** lines 659-672 and 695-712: the index b_idx and the interpolated value; zero outside the grid *)
Definition b_idx (grid : list R) (Ek : R) : nat :=
  let i := S (int_ ((Ek - nth 0 grid 0) / (nth 1 grid 0 - nth 0 grid 0))) in
  if Nat.eqb i (length grid) then (i - 1)%nat else i.
Definition outside (grid : list R) (Ek : R) : bool :=
  if Rlt_dec Ek (nth 0 grid 0) then true else if Rlt_dec (last grid 0) Ek then true else false.
Definition csc (x : R) (z : Cr) : Cr := @mkC RRing (x * re z)%R (x * im z)%R.
Definition interp (grid : list R) (f : list Cr) (Ek : R) : Cr :=
  let bi := b_idx grid Ek in let ai := (bi - 1)%nat in
  let b := nth bi grid 0 in let a := nth ai grid 0 in
  let fb := nth bi f r0 in let fa := nth ai f r0 in
  radd (csc (Ek / (b - a)) (rsub fb fa)) (csc (/ (b - a)) (rsub (csc b fa) (csc a fb))).
(** func_2vN for the array hfk of one lead; [eta] is true for +1 *)
Definition func_2vN (grid : list R) (hfk : list Cr) (Ek : R) (eta : bool) : Cr :=
  if outside grid Ek then r0
  else let rez := interp grid hfk Ek in if eta then csc PI rez else csc PI (conj rez).
(** get_at_k1 for one column: [u] or [hu] *)
Definition at_k1 (grid : list R) (f : list Cr) (Ek : R) (cj : bool) : Cr :=
  if outside grid Ek then r0
  else let u := interp grid f Ek in csc PI (if cj then conj u else u).

(** ** determine_phi1_phi0 255-270, one entry *)
Definition dx (Ek : list R) (i : nat) : R :=
  if Nat.eqb i 0 then nth (i + 1) Ek 0 - nth i Ek 0
  else if Nat.eqb i (length Ek - 1) then nth i Ek 0 - nth (i - 1) Ek 0
  else nth (i + 1) Ek 0 - nth (i - 1) Ek 0.
Definition phi1_int (Ek : list R) (f : nat -> Cr) : Cr :=
  fold_left (fun s i => radd s (csc (1 / 2 * dx Ek i) (f i))) (seq 0 (length Ek)) r0.
Definition e_phi1_int (Ek : list R) (f : nat -> Cr) : Cr :=
  fold_left (fun s i => radd s (csc (1 / 2 * dx Ek i * nth i Ek 0) (f i))) (seq 0 (length Ek)) r0.
