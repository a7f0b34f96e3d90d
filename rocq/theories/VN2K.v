(** The master equation of the 2vN approach once the first-order table is known.
    qmeq/approach/base/neumann2.py generate_kern 272-317, generate_current 319-362. *)
From Coq Require Import String List Arith Lia ZArith Bool Permutation Ring.
From Verif Require Import Base DMIndex CRing Layout Kernel Rates.
Import ListNotations.
Open Scope nat_scope.
Local Notation length := List.length.

Section Model.
Variable K : CRing.
Local Notation C := (Cx K).
Local Open Scope rng_scope.
(** [P l cb j] is phi1_phi0[l, cb, j] *)
Variables (L : Lay) (nl : nat) (E : nat -> K) (T : nat -> nat -> nat -> C) (P : nat -> nat -> Z -> C).
Definition n0 : nat := ly_ndm0 L.
(** Python's negative indices into an array of length ndm0 *)
Definition wrap (i : Z) : Z := if (i <? 0)%Z then (i + Z.of_nat n0)%Z else i.
Definition at0 (b bp : nat) (c : Z) : Z := wrap (ind0 L b bp c).

(** lines 287-294 *)
Definition shuffle : Z * Z -> C :=
  run_writes eqZZ (flat_map (fun c => flat_map (fun p => let '(b, bp) := p in
      [((at0 b bp c, at0 bp b c), 1); ((at0 bp b c, at0 b bp c), 1)]) (combinations_wr (states L c))) (charges L)) zeros.
(** line 295 *)
Definition Pc (l cb : nat) (j : Z) : C :=
  rsum (fun x => conj (P l cb (Z.of_nat x)) * shuffle (Z.of_nat x, j)) (seq 0 n0).

(** kern[i, j] = v  and  kern[i] += row *)
Inductive kop := KSet (i j : Z) (v : C) | KAdd (i : Z) (row : Z -> C).
Definition kstep (m : Z * Z -> C) (o : kop) : Z * Z -> C :=
  match o with
  | KSet i j v => fun x => if eqZZ x (i, j) then v else m x
  | KAdd i row => fun x => if Z.eq_dec (fst x) i then m x + row (snd x) else m x
  end.
(** lines 303-317, one (b, bp) *)
Definition kern_ops (c : Z) (b bp : nat) : list kop :=
  let i := at0 b bp c in
  KSet i i (ofR (E b - E bp)) ::
  flat_map (fun a => flat_map (fun l =>
      [KAdd i (fun j => T l b a * Pc l (ind1 L bp a (c - 1)) j);
       KAdd i (fun j => - (P l (ind1 L b a (c - 1)) j * T l a bp))]) (leads nl)) (states L (c - 1)) ++
  flat_map (fun d => flat_map (fun l =>
      [KAdd i (fun j => T l b d * P l (ind1 L d bp c) j);
       KAdd i (fun j => - (Pc l (ind1 L d b c) j * T l d bp))]) (leads nl)) (states L (c + 1)).
Definition vn2_kern : Z * Z -> C :=
  fold_left kstep (flat_map (fun c => flat_map (fun p => kern_ops c (fst p) (snd p))
     (list_prod (states L c) (states L c))) (charges L)) zeros.

(** ** Currents, lines 341-360 *)
Variable phi0 : Z -> C.
Definition phi1 (l cb : nat) : C := rsum (fun j => P l cb (Z.of_nat j) * phi0 (Z.of_nat j)) (seq 0 n0).
Definition vn2_current (l : nat) : K :=
  rsum (fun c => rsum (fun p => m2im K (phi1 l (ind1 L (fst p) (snd p) c) * T l (snd p) (fst p)))
     (list_prod (states L (c + 1)) (states L c))) (charges1 L).
End Model.
