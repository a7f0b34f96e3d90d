(** digamma and clog of the compiled module: qmeq/specfunc/c_specfunc.pyx 25-34, 84-89, 218-251.  Real numbers in place of floats; the numerals are the decimal fractions of the source. *)
From Coq Require Import Reals List Arith.
From Verif Require Import CplxR Polygamma.
Import ListNotations.
Local Open Scope R_scope.

(** 26-34: Digamma_factors *)
Definition dfac : list R :=
  [0; - (83333333333333333333333333333333333333333333333333 / 10 ^ 51); 8333333333333333333333333333333333333333333333333 / 10 ^ 51; - (3968253968253968253968253968253968253968253968254 / 10 ^ 51);
   41666666666666666666666666666666666666666666666667 / 10 ^ 52; - (75757575757575757575757575757575757575757575757576 / 10 ^ 52); 21092796092796092796092796092796092796092796092796 / 10 ^ 51;
   - (83333333333333333333333333333333333333333333333333 / 10 ^ 51)].
Definition df (i : nat) : R := nth i dfac 0.
(** 84-89 *)
Definition clog (z : C) : C := mk (/ 2 * ln (Re z * Re z + Im z * Im z)) (atan (Im z / Re z)).
(** 234-235: [n] passes of the loop over v *)
Fixpoint minus_terms (n : nat) (z ret : C) : C := match n with O => ret | S k => (minus_terms k z ret - c1 / (z + ofR (INR k)))%C end.
(** 246-249: the passes with 7-i = j, ..., 0 *)
Fixpoint recur (j : nat) (r s a b : R) : R * R := match j with O => (a, b) | S k => recur k r s (b + r * a) (df k - s * a) end.
(** 218-251.  For x <= 0 the code calls polygamma(z, 0); its first column is minus the table above, [Ctab 0] to 18 digits. *)
Definition digamma (z : C) : C :=
  if Rle_dec (Re z) 0 then polygamma clog z 0 else
  let n := if Rlt_dec (Re z) 8 then (8 - int_ (Re z))%nat else 0%nat in
  let ret := minus_terms n z c0 in
  let z := (z + ofR (INR n))%C in
  let t := (c1 / z)%C in
  let ret := (ret - t / ofR 2)%C in
  let t := (t / z)%C in
  let r := Re t + Re t in
  let s := Re t ^ 2 + Im t ^ 2 in
  let ab := recur 6 r s (df 7) (df 6) in
  (ret + t * ofR (fst ab) + ofR (snd ab) + clog z)%C.
