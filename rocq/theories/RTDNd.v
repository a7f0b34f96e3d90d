(** The rest of the off-diagonal corrections of the RTD approach.
    qmeq/approach/base/RTD.py generate_col_nondiag_kern_1st_order_nd 771-884, generate_row_inverse_Liouvillian 886-915;
    qmeq/approach/kernel_handler.py add_matrix_element 261-306, add_element_Lnn 377-398.
    Parameters as in RTDK.v; [inv x] is 1.0/E1 for E1 = x after the clipping of lines 907-911. *)
From Coq Require Import String List Arith Lia ZArith Bool Permutation Ring.
From Verif Require Import Base DMIndex CRing Layout Kernel RTDK.
Import ListNotations.
Open Scope nat_scope.
Local Notation length := List.length.

Section Model.
Variable K : CRing.
Local Notation C := (Cx K).
Local Open Scope rng_scope.
Variables (L : Lay) (nl : nat) (E : nat -> K) (T : nat -> nat -> nat -> C).
Variables (pi : K) (F Fm ph : nat -> K -> K) (inv : K -> K).
Local Notation lds := (leads nl).
Local Notation dn_el := (dn_el K).
Local Notation dphi := (dphi K ph).
Local Notation jump := (jump K pi).
Local Notation stay1 := (stay1 K pi).
Local Notation stay2 := (stay2 K pi).

(** 771-884; the pairs of updates (ReWnd, ImWnd) *)
Definition nd_col (a1 : nat) (c : Z) : list dn_el :=
  let at_ (l a2 b2 : nat) (c2 : Z) (v : K * K) : dn_el := ((l, (nd_ind L a2 b2 c2, ind0 L a1 a1 c)), v) in
  let top := (c =? Z.of_nat (ly_ncharge L) - 1)%Z in let bottom := (c =? 0)%Z in
  (if top then [] else
   flat_map (fun a2 => let E2 := E a2 - E a1 in
     flat_map (fun b2 => if Nat.eqb a2 b2 then [] else
       let E1 := E b2 - E a1 in
       map (fun l => at_ l a2 b2 (c + 1)%Z (jump (T l a2 a1 * conj (T l b2 a1)) (F l E1 + F l E2) (dphi 1 l E1 E2))) lds)
       (states L (c + 1))) (states L (c + 1))) ++
  (if bottom then [] else
   flat_map (fun a2 => let E1 := E a1 - E a2 in
     flat_map (fun b2 => if Nat.eqb b2 a2 then [] else
       let E2 := E a1 - E b2 in
       map (fun l => at_ l a2 b2 (c - 1)%Z (jump (T l a1 b2 * conj (T l a1 a2)) (Fm l E1 + Fm l E2) (dphi (- (1)) l E1 E2))) lds)
       (states L (c - 1))) (states L (c - 1))) ++
  flat_map (fun a2 => flat_map (fun b2 => if Nat.eqb a2 b2 then [] else
    (if top then [] else
     flat_map (fun x =>
       (if Nat.eqb a1 b2 then let E1 := E x - E b2 in
          map (fun l => at_ l a2 b2 c (stay1 (T l x a1 * conj (T l x a2)) (F l E1) (1 * ph l E1))) lds else []) ++
       (if Nat.eqb a1 a2 then let E1 := E x - E a2 in
          map (fun l => at_ l a2 b2 c (stay2 (T l x b2 * conj (T l x a1)) (F l E1) (1 * ph l E1))) lds else []))
       (states L (c + 1))) ++
    (if bottom then [] else
     flat_map (fun x =>
       (if Nat.eqb a1 b2 then let E1 := E b2 - E x in
          map (fun l => at_ l a2 b2 c (stay2 (T l a2 x * conj (T l a1 x)) (Fm l E1) (- (1) * ph l E1))) lds else []) ++
       (if Nat.eqb a1 a2 then let E1 := E a2 - E x in
          map (fun l => at_ l a2 b2 c (stay1 (T l a1 x * conj (T l b2 x)) (Fm l E1) (- (1) * ph l E1))) lds else []))
       (states L (c - 1)))) (states L c)) (states L c).
(** generate_kern 130-140 *)
Definition nd_all : list dn_el := each_state L nd_col.
Definition re_wnd : nat * (Z * Z) -> K := run_updates eq3 (map (fun e => (fst e, fst (snd e))) nd_all) zeros.
Definition im_wnd : nat * (Z * Z) -> K := run_updates eq3 (map (fun e => (fst e, snd (snd e))) nd_all) zeros.

(** 886-915 in the loops of generate_kern 144-151; a row k and a column k of an array with n2 rows stand for k - n2, too *)
Definition lnn_updates : list ((Z * Z) * K) :=
  flat_map (fun c => flat_map (fun b => flat_map (fun bp => if Nat.eqb b bp then [] else
     [((nd_ind L b bp c, nd_ind L b bp c), inv (E b - E bp))]) (states L c)) (states L c)) (charges L).
Definition lnn_tab : Z * Z -> K := run_updates eqZZ lnn_updates zeros.
Definition wrap (k : nat) : list Z := [Z.of_nat k; (Z.of_nat k - Z.of_nat (n2 L))%Z].
Definition lnn (k m : nat) : K := rsum (fun i => rsum (fun j => lnn_tab (i, j)) (wrap m)) (wrap k).
(** lines 168-171: np.sum(kh.ImWnd, 0), np.sum(kh.ReWnd, 0) *)
Definition snd_im (m : nat) (j : Z) : K := rsum (fun l => rsum (fun i => im_wnd (l, (i, j))) (wrap m)) lds.
Definition snd_re (m : nat) (j : Z) : K := rsum (fun l => rsum (fun i => re_wnd (l, (i, j))) (wrap m)) lds.

(** add_off_diag_corrections with these arrays *)
Definition corr : nat * (Z * Z) -> K := wcorr K L nl E T pi F Fm ph lnn snd_im snd_re.
End Model.
