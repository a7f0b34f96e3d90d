(** The integral equation of the 2vN approach.
    qmeq/approach/base/neumann2.py TermsCalculator2vN.phi1k_local 424-537, phi1k_iterate 539-636. *)
From Coq Require Import String List Arith Lia ZArith Bool Ring.
From Verif Require Import Base DMIndex CRing Layout Kernel Rates VN2K.
Import ListNotations.
Open Scope nat_scope.
Local Notation length := List.length.

Definition eqNN : forall a b : nat * nat, {a = b} + {a <> b}.
Proof. decide equality; apply Nat.eq_dec. Defined.
Definition eqNZ : forall a b : nat * Z, {a = b} + {a <> b}.
Proof. decide equality; [apply Z.eq_dec | apply Nat.eq_dec]. Defined.

Section Model.
Variable K : CRing.
Local Notation C := (Cx K).
Local Open Scope rng_scope.
Variables (L : Lay) (nl : nat) (E : nat -> K) (T : nat -> nat -> nat -> C).

(** the loop over charge and (c, b) *)
Definition each_cb {A} (f : Z -> nat -> nat -> list A) : list A :=
  flat_map (fun q => flat_map (fun p => f q (fst p) (snd p)) (list_prod (states L (q + 1)) (states L q))) (charges1 L).

(** ** phi1k_local.  [Fp x l eta] is func_2vN(x, l, eta, hfkp), [Fm] the one with hfkm; eta is true for +1. *)
Section Local.
Variables (Fp Fm : K -> nat -> bool -> C) (Ek : K).
(** 482-525 *)
Definition kern1_ops (q : Z) (c b : nat) : list (nat * nat * C) :=
  let cb := ind1 L c b q in
  (cb, cb, ofR (Ek - E c + E b)) ::
  (* 2nd and 7th terms *)
  flat_map (fun p => let '(b1, a1) := p in map (fun l1 =>
     (cb, ind1 L b1 a1 (q - 1), - (T l1 c b1 * T l1 a1 b * (Fp (Ek - E b1 + E b) l1 true - Fp (- (Ek - E c + E a1)) l1 false))))
     (leads nl)) (list_prod (states L q) (states L (q - 1))) ++
  (* 6th and 8th terms *)
  flat_map (fun b1 => let cb1 := ind1 L c b1 q in flat_map (fun l1 =>
     map (fun c1 => (cb, cb1, - (T l1 b1 c1 * T l1 c1 b * Fp (Ek - E c + E c1) l1 true))) (states L (q + 1)) ++
     map (fun a1 => (cb, cb1, - (- (T l1 b1 a1) * T l1 a1 b * Fm (- (Ek - E c + E a1)) l1 false))) (states L (q - 1)))
     (leads nl)) (states L q) ++
  (* 1st and 3rd terms *)
  flat_map (fun c1 => let c1b := ind1 L c1 b q in flat_map (fun l1 =>
     map (fun b1 => (cb, c1b, - (T l1 c b1 * T l1 b1 c1 * Fm (Ek - E b1 + E b) l1 true))) (states L q) ++
     map (fun d1 => (cb, c1b, - (- (T l1 c d1) * T l1 d1 c1 * Fp (- (Ek - E d1 + E b)) l1 false))) (states L (q + 2)))
     (leads nl)) (states L (q + 1)) ++
  (* 5th and 4th terms *)
  flat_map (fun p => let '(d1, c1) := p in map (fun l1 =>
     (cb, ind1 L d1 c1 (q + 1), - (T l1 c d1 * T l1 c1 b * (Fm (Ek - E c + E c1) l1 true - Fm (- (Ek - E d1 + E b)) l1 false))))
     (leads nl)) (list_prod (states L (q + 2)) (states L (q + 1))).
Definition kern1 : nat * nat -> C := run_updates eqNN (each_cb kern1_ops) zeros.
(** 484-489 *)
Variables (l : nat) (fp fm : K).
Definition kern0_ops (q : Z) (c b : nat) : list (nat * Z * C) :=
  let cb := ind1 L c b q in
  map (fun b1 => (cb, at0 L b1 b q, T l c b1 * ofR fp)) (states L q) ++
  map (fun c1 => (cb, at0 L c c1 (q + 1), - (T l c1 b) * ofR fm)) (states L (q + 1)).
Definition kern0 : nat * Z -> C := run_updates eqNZ (each_cb kern0_ops) zeros.
End Local.

(** ** phi1k_iterate *)
(** One call of get_at_k1 and the prefactor of what it returns: the energy, lead, element, and whether it is conjugated. *)
Definition call1 : Type := K * nat * nat * bool * C.
Definition iter_terms (Ek : K) (l : nat) (fp fm : K) (q : Z) (c b : nat) : list call1 :=
  (* 1st term *)
  flat_map (fun a1 => flat_map (fun b1 => map (fun l1 =>
     (Ek - E b1 + E b, l1, ind1 L b a1 (q - 1), true, - (T l1 c b1) * T l b1 a1 * ofR fp)) (leads nl)) (states L q)) (states L (q - 1)) ++
  (* 2nd and 5th terms *)
  flat_map (fun b1 => flat_map (fun c1 => flat_map (fun l1 =>
     [(Ek - E b1 + E b, l1, ind1 L c1 b1 q, true, - (T l1 c b1) * ofR fm * T l c1 b);
      (Ek - E c + E c1, l1, ind1 L c1 b1 q, true, - (T l c b1) * ofR fp * T l1 c1 b)]) (leads nl)) (states L (q + 1))) (states L q) ++
  (* 3rd term *)
  flat_map (fun c1 => flat_map (fun d1 => map (fun l1 =>
     (- (Ek - E d1 + E b), l1, ind1 L c1 b q, false, T l1 c d1 * T l d1 c1 * ofR fp)) (leads nl)) (states L (q + 2))) (states L (q + 1)) ++
  (* 4th term *)
  flat_map (fun d1 => flat_map (fun c1 => map (fun l1 =>
     (- (Ek - E d1 + E b), l1, ind1 L d1 c1 (q + 1), false, T l1 c d1 * ofR fm * T l c1 b)) (leads nl)) (states L (q + 1))) (states L (q + 2)) ++
  (* 6th term *)
  flat_map (fun d1 => flat_map (fun c1 => map (fun l1 =>
     (Ek - E c + E c1, l1, ind1 L d1 c (q + 1), true, - ofR fm * T l d1 c1 * T l1 c1 b)) (leads nl)) (states L (q + 1))) (states L (q + 2)) ++
  (* 7th term *)
  flat_map (fun b1 => flat_map (fun a1 => map (fun l1 =>
     (- (Ek - E c + E a1), l1, ind1 L b1 a1 (q - 1), false, T l c b1 * ofR fp * T l1 a1 b)) (leads nl)) (states L (q - 1))) (states L q) ++
  (* 8th term *)
  flat_map (fun b1 => flat_map (fun a1 => map (fun l1 =>
     (- (Ek - E c + E a1), l1, ind1 L c b1 q, false, ofR fm * T l b1 a1 * T l1 a1 b)) (leads nl)) (states L (q - 1))) (states L q).

(** [GH], [GU] x l cb cj j: the entries [j] of hu and u returned by get_at_k1(x, l, cb, cj) *)
Section Iterate.
Variables (GH GU : K -> nat -> nat -> bool -> Z -> C).
Definition pick (t : call1) (j : Z) : C :=
  let '(x, l1, i, cj, w) := t in
  w * (if cj then GH x l1 i cj j - Ci K * GU x l1 i cj j else GH x l1 i cj j + Ci K * GU x l1 i cj j).
(** kern0 before the multiplication with kern1_inv: kern0[cb] = term *)
Definition iter_kern (Ek : K) (l : nat) (fp fm : K) : nat * Z -> C :=
  fun x => run_writes Nat.eq_dec (each_cb (fun q c b => [(ind1 L c b q, rsum (fun t => pick t (snd x)) (iter_terms Ek l fp fm q c b))])) (fun _ => 0) (fst x).
End Iterate.
End Model.
