(** polygamma(U, K): qmeq/specfunc/specfunc.py 338-456.  Real numbers in place of floats; the numerals are the decimal fractions of the source. *)
From Coq Require Import Reals List Arith.
From Verif Require Import CplxR.
Import ListNotations.
Local Open Scope R_scope.

(** 362-363 *)
Definition SGN : list R := [- (1); 1; - (1); 1; - (1)].
Definition FCT : list R := [0; 1; 1; 2; 6; 24].
(** 365-400: the columns of C *)
Definition Ctab (K : nat) : list R :=
  match K with
  | 0%nat => [833333333333333333 / 10 ^ 19; - (833333333333333333 / 10 ^ 20); 396825396825396825 / 10 ^ 20; - (416666666666666667 / 10 ^ 20); 757575757575757576 / 10 ^ 20; - (210927960927960928 / 10 ^ 19)]
  | 1%nat => [166666666666666667 / 10 ^ 18; - (333333333333333333 / 10 ^ 19); 238095238095238095 / 10 ^ 19; - (333333333333333333 / 10 ^ 19); 757575757575757576 / 10 ^ 19; - (253113553113553114 / 10 ^ 18)]
  | 2%nat => [5 / 10; - (166666666666666667 / 10 ^ 18); 166666666666666667 / 10 ^ 18; - (3 / 10); 833333333333333333 / 10 ^ 18; - (329047619047619048 / 10 ^ 17)]
  | 3%nat => [2; - (1); 133333333333333333 / 10 ^ 17; - (3); 10; - (460666666666666667 / 10 ^ 16)]
  | 4%nat => [10; - (7); 12; - (33); 130; - (691)]
  | _ => [0; 0; 0; 0; 0; 0]
  end.
Definition Cat (i K : nat) : R := nth i (Ctab K) 0.
(** int(A) for A >= 0 *)
Definition int_ (A : R) : nat := Z.to_nat (Int_part A).

Local Open Scope C_scope.
(** 412-415: n passes of the loop *)
Fixpoint terms (n K1 : nat) (V H : C) : C * C :=
  match n with O => (V, H) | S k => let V' := V + c1 in terms k K1 V' (H + c1 / V' ^ K1) end.
(** 419-424 *)
Fixpoint horner (i K : nat) (R_ P : C) : C := match i with O => P | S k => horner k K R_ (R_ * (P + ofR (Cat k K))) end.

Section Model.
Variable clog : C -> C.
Definition polygamma (U : C) (K : nat) : C :=
  if (4 <? K)%nat then c0 else
  let X := Re U in let A := Rabs X in
  let K1 := S K in
  let U := if Rlt_dec X 0 then - U else U in
  let V := U in
  let VH := if Rlt_dec A 15 then let r := terms (15 - int_ A) K1 V (c1 / V ^ K1) in (fst r + c1, snd r) else (V, c0) in
  let V := fst VH in let H := snd VH in
  let R_ := c1 / V ^ 2 in
  let P := horner 5 K R_ (R_ * ofR (Cat 5 K)) in
  let H := H * ofR (nth (K + 1) FCT 0%R) in
  let hh1 := c1 / V ^ K1 in
  let hh2 := P + ofR (nth K FCT 0%R) in
  let hh3 := V * hh2 + ofR (/ 2 * nth (K + 1) FCT 0%R) in
  let H := H + hh1 * hh3 in
  let H := H * ofR (nth K SGN 0%R) in
  let H := match K with O => H + clog V | _ => H end in
  if Rlt_dec X 0 then
    let V := V * ofR PI in
    let X := Re V in
    let A := sin X in let B := cos X in let T := tanh X in
    let P := ofR B - ci * ofR A * ofR T / (ofR A + ci * ofR A * ofR T) in
    match K with
    | 0%nat => H + (c1 / U + P * ofR PI)
    | 1%nat => H + c1 / U ^ 2 + (P ^ 2 + c1) * ofR (9869604401089358 / 10 ^ 15)
    | 2%nat => H + c1 / U ^ 3 + (P ^ 2 + c1) * ofR (6201255336059963 / 10 ^ 14)
    | _ => H
    end
  else H.
End Model.
