(** The kernels and currents of the RTD approach.
    qmeq/approach/base/RTD.py generate_kern 106-151, add_off_diag_corrections 153-176, generate_LN 178-192,
    generate_current 194-245, generate_row_1st_order_kernel 274-310, generate_row_1st_energy_kernel 312-376,
    generate_row_2nd_energy_kernel 378-446, generate_col_diag_kern_2nd_order 448-649,
    generate_col_nondiag_kern_1st_order_dn 651-769; qmeq/approach/kernel_handler.py KernelHandlerRTD 255-374.

    Tables and special functions are parameters: [pf] is paulifct, [F l x] is fermi_func((x-mu_l)/T_l), [Fm l x] is
    fermi_func(-(x-mu_l)/T_l), [ph l x] is phi((x-mu_l)/T_l, ...), [phm l x] is phi(-(x-mu_l)/T_l, ...), [intD], [intX] are
    integralD, integralX at the temperatures and chemical potentials of two leads.  [is0], [lt2], [gt3], [imgt3] are the
    comparisons with the cutoffs. *)
From Coq Require Import String List Arith Lia ZArith Bool Permutation Ring.
From Verif Require Import Base DMIndex CRing Layout Kernel.
Import ListNotations.
Open Scope nat_scope.
Local Notation length := List.length.

Definition eq3 : forall a b : nat * (Z * Z), {a = b} + {a <> b}.
Proof. decide equality; [apply eqZZ|apply Nat.eq_dec]. Defined.

Section Model.
Variable K : CRing.
Local Notation C := (Cx K).
Local Open Scope rng_scope.
Variables (L : Lay) (nl ns : nat) (E : nat -> K) (T : nat -> nat -> nat -> C) (tl : nat -> nat -> C).
Variables (pf : nat -> nat -> bool -> K) (pi h : K) (F Fm ph phm : nat -> K -> K).
Variables (intD intX : Z -> Z -> K -> K -> K -> nat -> nat -> bool -> C).
Variables (is0 lt2 gt3 imgt3 imgt : C -> bool).
Local Notation lds := (leads nl).

Definition upd := ((nat * (Z * Z)) * K)%type.

(** ** Handler methods *)
(** set_matrix_element_dd 308-333 *)
Definition set_dd (l : nat) (fctm fctp : K) (bb aa : Z) : list upd := [((l, (bb, bb)), fctm); ((l, (bb, aa)), fctp)].
(** add_element_2nd_order 335-374 *)
Inductive call2 := Add2 (r : nat) (fct : K) (i0 i1 : Z) (a3 : nat) (c3 : Z) (a4 : nat) (c4 : Z).
Definition add2 (x : call2) : list upd :=
  let '(Add2 r fct i0 i1 a3 c3 a4 c4) := x in
  let i3 := ind0 L a3 a3 c3 in let i4 := ind0 L a4 a4 c4 in
  let f := (1 + 1) * fct in
  [((r, (i4, i0)), f); ((r, (i3, i0)), - f); ((r, (i4, i1)), f); ((r, (i3, i1)), - f)].
(** add_matrix_element 261-306; the shifted number of an element with b <> bp *)
Definition nd_ind (b bp : nat) (c : Z) : Z :=
  let i := ind0 L b bp c in
  if Nat.eqb b bp then i else
  let i := (i - Z.of_nat (ly_npauli L))%Z in
  if bp <? b then (i + (Z.of_nat (ly_ndm0 L) - Z.of_nat (ly_npauli L)))%Z else i.

(** ** generate_row_1st_order_kernel 274-310 *)
Definition row1 (b : nat) (bc : Z) : list upd :=
  let ac := (bc - 1)%Z in let cc := (bc + 1)%Z in
  let bb := ind0 L b b bc in
  flat_map (fun a => let aa := ind0 L a a ac in let ba := ind1 L b a ac in
     flat_map (fun l => set_dd l (- pf l ba true) (pf l ba false) bb aa) lds) (states L ac) ++
  flat_map (fun c => let c_c := ind0 L c c cc in let cb := ind1 L c b bc in
     flat_map (fun l => set_dd l (- pf l cb false) (pf l cb true) bb c_c) lds) (states L cc).

(** ** generate_col_diag_kern_2nd_order 448-649 *)
(** the two kinds of insertions: `if abs(t2) > t_cutoff3: temp = +-t2*integral(...); kh.add_element_2nd_order(...)` *)
Definition insD (p eta : Z) (E1 E2 E3 : K) (r0 r1 : nat) (t2 : C) (i0 i1 : Z) (a3 : nat) (c3 : Z) (a4 : nat) (c4 : Z) : list call2 :=
  if gt3 t2 then [Add2 r0 (re (t2 * intD p eta E1 E2 E3 r0 r1 (imgt3 t2))) i0 i1 a3 c3 a4 c4] else [].
Definition insX (p eta : Z) (E1 E2 E3 : K) (r0 r1 : nat) (t2 : C) (i0 i1 : Z) (a3 : nat) (c3 : Z) (a4 : nat) (c4 : Z) : list call2 :=
  if gt3 t2 then [Add2 r1 (re (- t2 * intX p eta E1 E2 E3 r0 r1 (imgt3 t2))) i0 i1 a3 c3 a4 c4] else [].
Definition col2 (a0 : nat) (q : Z) : list call2 :=
  let i0 := ind0 L a0 a0 q in
  flat_map (fun rr => let '(r0, r1) := rr in
  flat_map (fun a1p =>
    let t := T r0 a1p a0 in
    if is0 t then [] else
    let i1 := ind0 L a1p a1p (q + 1) in
    let E1 := E a1p - E a0 in
    (* eta1 = 1, p1 = 1 *)
    flat_map (fun a2p =>
      let t1 := t * T r1 a2p a1p in
      if lt2 t1 then [] else
      let E2 := E a2p - E a0 in
      flat_map (fun a3p =>
        let E3 := E a3p - E a0 in
        insD 1 1 E1 E2 E3 r0 r1 (t1 * conj (T r1 a2p a3p) * conj (T r0 a3p a0)) i0 i1 a3p (q + 1) a0 q ++
        insX 1 1 E1 E2 E3 r0 r1 (t1 * conj (T r0 a2p a3p) * conj (T r1 a3p a0)) i0 i1 a3p (q + 1) a0 q) (states L (q + 1)) ++
      flat_map (fun a3m =>
        let E3 := E a2p - E a3m in
        insD 1 1 E1 E2 E3 r0 r1 (t1 * conj (T r1 a3m a0) * conj (T r0 a2p a3m)) i0 i1 a2p (q + 2) a3m (q + 1) ++
        insX 1 1 E1 E2 E3 r0 r1 (t1 * conj (T r0 a3m a0) * conj (T r1 a2p a3m)) i0 i1 a2p (q + 2) a3m (q + 1)) (states L (q + 1)))
      (states L (q + 2)) ++
    (* p1 = -1 *)
    flat_map (fun a2m =>
      let t1 := t * T r1 a0 a2m in
      if lt2 t1 then [] else
      let E2 := E a1p - E a2m in
      flat_map (fun a3p =>
        let E3 := E a3p - E a2m in
        insD (-1) 1 E1 E2 E3 r0 r1 (t1 * conj (T r1 a1p a3p) * conj (T r0 a3p a2m)) i0 i1 a3p q a2m (q - 1) ++
        insX (-1) 1 E1 E2 E3 r0 r1 (t1 * conj (T r0 a1p a3p) * conj (T r1 a3p a2m)) i0 i1 a3p q a2m (q - 1)) (states L q) ++
      flat_map (fun a3m =>
        let E3 := E a1p - E a3m in
        insD (-1) 1 E1 E2 E3 r0 r1 (t1 * conj (T r1 a3m a2m) * conj (T r0 a1p a3m)) i0 i1 a1p (q + 1) a3m q ++
        insX (-1) 1 E1 E2 E3 r0 r1 (t1 * conj (T r0 a3m a2m) * conj (T r1 a1p a3m)) i0 i1 a1p (q + 1) a3m q) (states L q))
      (states L (q - 1)) ++
    (* eta1 = -1, p1 = 1 *)
    flat_map (fun a2p =>
      let E2 := E a2p - E a0 in
      let t1 := t * conj (T r1 a1p a2p) in
      if lt2 t1 then [] else
      flat_map (fun a3p =>
        insD 1 (-1) E1 E2 (E a3p - E a0) r0 r1 (t1 * T r1 a3p a2p * conj (T r0 a3p a0)) i0 i1 a3p (q + 1) a0 q) (states L (q + 1)) ++
      flat_map (fun a3p =>
        insX 1 (-1) E1 E2 (E a3p - E a0) r0 r1 (t1 * conj (T r0 a2p a3p) * T r1 a0 a3p) i0 i1 a3p (q - 1) a0 q) (states L (q - 1)) ++
      flat_map (fun a3m =>
        insD 1 (-1) E1 E2 (E a2p - E a3m) r0 r1 (t1 * T r1 a0 a3m * conj (T r0 a2p a3m)) i0 i1 a2p q a3m (q - 1)) (states L (q - 1)) ++
      flat_map (fun a3m =>
        insX 1 (-1) E1 E2 (E a2p - E a3m) r0 r1 (t1 * conj (T r0 a3m a0) * T r1 a3m a2p) i0 i1 a2p q a3m (q + 1)) (states L (q + 1)))
      (states L q) ++
    (* p1 = -1; no cutoff on t1 here *)
    flat_map (fun a2m =>
      let E2 := E a1p - E a2m in
      let t1 := t * conj (T r1 a2m a0) in
      flat_map (fun a3p =>
        insD (-1) (-1) E1 E2 (E a3p - E a2m) r0 r1 (t1 * T r1 a3p a1p * conj (T r0 a3p a2m)) i0 i1 a3p (q + 2) a2m (q + 1)) (states L (q + 2)) ++
      flat_map (fun a3p =>
        insX (-1) (-1) E1 E2 (E a3p - E a2m) r0 r1 (t1 * conj (T r0 a1p a3p) * T r1 a2m a3p) i0 i1 a3p q a2m (q + 1)) (states L q) ++
      flat_map (fun a3m =>
        insD (-1) (-1) E1 E2 (E a1p - E a3m) r0 r1 (t1 * T r1 a2m a3m * conj (T r0 a1p a3m)) i0 i1 a1p (q + 1) a3m q) (states L q) ++
      flat_map (fun a3m =>
        insX (-1) (-1) E1 E2 (E a1p - E a3m) r0 r1 (t1 * conj (T r0 a3m a2m) * T r1 a3m a1p) i0 i1 a1p (q + 1) a3m (q + 2)) (states L (q + 2)))
      (states L (q + 1)))
    (states L (q + 1))) (list_prod lds lds).

(** ** The energy kernels 312-446 *)
(** lines 348-350: the product for two leads, states a, b, summed over the levels *)
Definition gam2 (l lp a b : nat) : C := rsum (fun n1 => T l a b * conj (T lp a b) * tl l n1 * conj (tl lp n1)) (seq 0 ns).
Definition others (l : nat) : list nat := filter (fun lp => negb (Nat.eqb lp l)) lds.
Definition gam1 (l a b : nat) : C := rsum (fun lp => gam2 l lp a b) (others l).
Definition temp1 (l a b : nat) : K :=
  let dE := E b - E a in (re (gam1 l a b) * ph l dE + re (gam1 l a b) * phm l dE) * pi.
Definition temp2 (l a b : nat) : K :=
  let dE := E b - E a in rsum (fun lp => re (gam2 l lp a b) * ph lp dE + re (gam2 l lp a b) * phm lp dE) (others l) * pi.
Definition erow (temp : nat -> nat -> nat -> K) (b : nat) (bc : Z) : list upd :=
  let bb := ind0 L b b bc in
  flat_map (fun a => flat_map (fun l => set_dd l (temp l a b) (temp l a b) bb (ind0 L a a (bc - 1))) lds) (states L (bc - 1)) ++
  flat_map (fun c => flat_map (fun l => set_dd l (temp l b c) (temp l b c) bb (ind0 L c c (bc + 1))) lds) (states L (bc + 1)).
(** the flag ImGamma: some |gamma.imag| exceeds the cutoff *)
Definition flag_pairs (c : Z) : list (nat * nat) := list_prod (states L c) (states L (c + 1)).
Definition im_gamma : bool :=
  existsb (fun c => existsb (fun p => existsb (fun l => (imgt (gam1 l (fst p) (snd p)) ||
     existsb (fun lp => imgt (gam2 l lp (fst p) (snd p))) (others l))%bool) lds) (flag_pairs c)) (charges L).

(** ** generate_kern 130-143 *)
Definition each_state {A} (f : nat -> Z -> list A) : list A :=
  flat_map (fun c => flat_map (fun b => if is_unique L b b c then f b c else []) (states L c)) (charges L).
Definition wdd0 : nat * (Z * Z) -> K := run_updates eq3 (each_state (fun b c => row1 b c ++ flat_map add2 (col2 b c))) zeros.
Definition we1 : nat * (Z * Z) -> K := run_updates eq3 (each_state (erow temp1)) zeros.
Definition we2 : nat * (Z * Z) -> K := run_updates eq3 (each_state (erow temp2)) zeros.

(** ** generate_col_nondiag_kern_1st_order_dn 651-769 *)
(** the pair of updates (ReWdn, ImWdn) of one call, at (l, row, col) *)
Definition dn_el := ((nat * (Z * Z)) * (K * K))%type.
Definition dphi (s : K) (l : nat) (x1 x2 : K) : K := s * ph l x1 - s * ph l x2.
(** temp1, temp2 of lines 689-690 and of the four diagonal cases *)
Definition jump (t2 : C) (f p : K) : K * K := (pi * re t2 * f - im t2 * p, re t2 * p + pi * im t2 * f).
Definition stay1 (t2 : C) (f p : K) : K * K := (- (pi * re t2 * f) - im t2 * p, - (pi * im t2 * f) + re t2 * p).
Definition stay2 (t2 : C) (f p : K) : K * K := (- (pi * re t2 * f) + im t2 * p, - (pi * im t2 * f) - re t2 * p).
Definition dn_col (a1 b1 : nat) (c : Z) : list dn_el :=
  let at_ (l a2 : nat) (c2 : Z) (v : K * K) : dn_el := ((l, (ind0 L a2 a2 c2, nd_ind a1 b1 c)), v) in
  let top := (c =? Z.of_nat (ly_ncharge L) - 1)%Z in let bottom := (c =? 0)%Z in
  (if top then [] else
   flat_map (fun a2 => let E1 := E a2 - E a1 in let E2 := E a2 - E b1 in
     map (fun l => at_ l a2 (c + 1)%Z (jump (T l a2 a1 * conj (T l a2 b1)) (F l E1 + F l E2) (dphi 1 l E1 E2))) lds)
     (states L (c + 1))) ++
  (if bottom then [] else
   flat_map (fun a2 => let E1 := E b1 - E a2 in let E2 := E a1 - E a2 in
     map (fun l => at_ l a2 (c - 1)%Z (jump (T l b1 a2 * conj (T l a1 a2)) (Fm l E1 + Fm l E2) (dphi (- (1)) l E1 E2))) lds)
     (states L (c - 1))) ++
  flat_map (fun a2 =>
    (if top then [] else
     flat_map (fun x =>
       (if Nat.eqb b1 a2 then let E1 := E x - E a2 in
          map (fun l => at_ l a2 c (stay1 (T l x a1 * conj (T l x a2)) (F l E1) (1 * ph l E1))) lds else []) ++
       (if Nat.eqb a1 a2 then let E1 := E x - E a2 in
          map (fun l => at_ l a2 c (stay2 (T l x a2 * conj (T l x b1)) (F l E1) (1 * ph l E1))) lds else []))
       (states L (c + 1))) ++
    (if bottom then [] else
     flat_map (fun x =>
       (if Nat.eqb b1 a2 then let E1 := E a2 - E x in
          map (fun l => at_ l a2 c (stay2 (T l a2 x * conj (T l a1 x)) (Fm l E1) (- (1) * ph l E1))) lds else []) ++
       (if Nat.eqb a1 a2 then let E1 := E a2 - E x in
          map (fun l => at_ l a2 c (stay1 (T l b1 x * conj (T l a2 x)) (Fm l E1) (- (1) * ph l E1))) lds else []))
       (states L (c - 1)))) (states L c).
(** generate_kern 144-150 *)
Definition dn_all : list dn_el :=
  flat_map (fun c => flat_map (fun b => flat_map (fun bp => if Nat.eqb b bp then [] else dn_col b bp c) (states L c))
     (states L c)) (charges L).
Definition re_wdn : nat * (Z * Z) -> K := run_updates eq3 (map (fun e => (fst e, fst (snd e))) dn_all) zeros.
Definition im_wdn : nat * (Z * Z) -> K := run_updates eq3 (map (fun e => (fst e, snd (snd e))) dn_all) zeros.

(** ** add_off_diag_corrections 153-176; [snd_im], [snd_re] are the sums over the leads of ImWnd, ReWnd, [lnn] is Lnn.
    A column index k of ReWdn is k modulo the number of columns (numpy's negative indices). *)
Definition n2 : nat := 2 * ly_ndm0 L - 2 * ly_npauli L.
Definition col_at (w : nat * (Z * Z) -> K) (l : nat) (i : Z) (k : nat) : K :=
  w (l, (i, Z.of_nat k)) + w (l, (i, (Z.of_nat k - Z.of_nat n2)%Z)).
Variables (lnn : nat -> nat -> K) (snd_im snd_re : nat -> Z -> K).
Definition wcorr (x : nat * (Z * Z)) : K :=
  let '(l, (i, j)) := x in
  rsum (fun m => rsum (fun k => col_at re_wdn l i k * lnn k m) (seq 0 n2) * snd_im m j) (seq 0 n2) +
  rsum (fun m => rsum (fun k => col_at im_wdn l i k * lnn k m) (seq 0 n2) * snd_re m j) (seq 0 n2).
(** Wdd and kern after generate_kern *)
Definition wdd (off_diag : bool) (x : nat * (Z * Z)) : K := if off_diag then wdd0 x + wcorr x else wdd0 x.
Definition rtd_kern (off_diag : bool) (ij : Z * Z) : K :=
  rsum (fun l => wdd0 (l, ij)) lds + (if off_diag then rsum (fun l => wcorr (l, ij)) lds else 0).

(** ** generate_LN 178-192: 2*charge of the considered states in the order of statesdm *)
Fixpoint rnat2 (n : nat) : K := match n with O => 0 | S m => rnat2 m + 1 end.
Definition ln_list : list K :=
  flat_map (fun c => flat_map (fun a => if is_unique L a a c then [(1 + 1) * rnat2 (Z.to_nat c)] else []) (states L c)) (charges L).
(** ** generate_current 194-245.  np.dot of vectors of different lengths raises. *)
Definition dotv (v : list K) (w : Z -> K) (size : nat) : option K :=
  if Nat.eqb (length v) size then Some (rsum (fun k => nth k v 0 * w (Z.of_nat k)) (seq 0 size)) else None.
Definition wdotv (w : nat * (Z * Z) -> K) (phi : Z -> K) (l : nat) (i : Z) : K :=
  rsum (fun j => w (l, (i, Z.of_nat j)) * phi (Z.of_nat j)) (seq 0 (ly_npauli L)).
Definition rtd_current (off_diag : bool) (phi : Z -> K) (l : nat) : option K :=
  option_map (fun x => h * x) (dotv ln_list (wdotv (wdd off_diag) phi l) (ly_npauli L)).
(** [Ea] is the array qd.Ea; the result [None] stands for the exception, [Some None] for nan *)
Definition rtd_energy_current (off_diag : bool) (nmany : nat) (phi : Z -> K) (l : nat) : option (option K) :=
  match dotv (map (fun b => (1 + 1) * E b) (seq 0 nmany)) (wdotv (wdd off_diag) phi l) (ly_npauli L) with
  | None => None
  | Some x => Some (if im_gamma then None else
      Some (h * x + (- h) * rsum (fun i => wdotv we1 phi l (Z.of_nat i)) (seq 0 (ly_npauli L))
                  + h * rsum (fun i => wdotv we2 phi l (Z.of_nat i)) (seq 0 (ly_npauli L))))
  end.
End Model.
