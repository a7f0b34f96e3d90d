(** Kernel assembly: qmeq/approach/kernel_handler.py (classes KernelHandler and
    KernelHandlerMatrixFree), qmeq/approach/aprclass.py generate_kern, generate_vec, generate_norm_vec,
    and the Pauli, Lindblad, 1vN and Redfield coupling terms and currents of qmeq/approach/base/. *)
From Coq Require Import String List Arith Lia ZArith Bool Permutation Ring.
From Verif Require Import Base DMIndex CRing Layout.
Import ListNotations.
Open Scope nat_scope.
Local Notation length := List.length.

Definition eqZZ : forall a b : Z * Z, {a = b} + {a <> b}.
Proof. decide equality; apply Z.eq_dec. Defined.

(** [itertools.combinations_with_replacement(l, 2)] in Python's order *)
Fixpoint combinations_wr (l : list nat) : list (nat * nat) :=
  match l with
  | [] => []
  | x :: l' => map (fun y => (x, y)) (x :: l') ++ combinations_wr l'
  end.

(** kernel_handler.py 36-41 and 60-61 *)
Definition is_included (L : Lay) (b bp : nat) (c : Z) : bool := negb (ind0 L b bp c =? -1)%Z.
Definition is_unique (L : Lay) (b bp : nat) (c : Z) : bool := uniq L b bp c.

Section Kernel.
Variable K : CRing.
Local Notation C := (Cx K).
Local Open Scope rng_scope.

(** The approach code only talks to the handler object by calling these methods; a run of
    generate_kern is the list of its calls. *)
Inductive call :=
| CEnergy (e : K) (b bp : nat) (c : Z)
| CElem (f : C) (b bp : nat) (c : Z) (a ap : nat) (ac : Z)
| CPauli (fm fp : K) (bb aa : Z).

Variable L : Lay.
Definition npauliZ : Z := Z.of_nat (ly_npauli L).
Definition ndm0Z : Z := Z.of_nat (ly_ndm0 L).
(** [self.ndm0 + bbp - self.npauli] *)
Definition imag_ind (k : Z) : Z := (ndm0Z + k - npauliZ)%Z.
Definition has_imag (k : Z) : bool := (ndm0Z <=? imag_ind k)%Z.

(** KernelHandler: set_energy 63-70, set_matrix_element 72-111, set_matrix_element_pauli 113-132 *)
Definition kh_updates (x : call) : list ((Z * Z) * K) :=
  match x with
  | CEnergy e b bp c =>
      let bbp := ind0 L b bp c in
      let bbpi := imag_ind bbp in
      if has_imag bbp then [((bbp, bbpi), e); ((bbpi, bbp), - e)] else []
  | CElem f b bp c a ap ac =>
      let bbp := ind0 L b bp c in
      let bbpi := imag_ind bbp in
      let aap := ind0 L a ap ac in
      let aapi := imag_ind aap in
      let aap_sgn : K := if cnj L a ap ac then 1 else - (1) in
      ((bbp, aap), im f) ::
      (if has_imag aap then
         ((bbp, aapi), re f * aap_sgn) ::
         (if has_imag bbp then [((bbpi, aapi), im f * aap_sgn)] else [])
       else []) ++
      (if has_imag bbp then [((bbpi, aap), - re f)] else [])
  | CPauli fm fp bb aa => [((bb, bb), fm); ((bb, aa), fp)]
  end.
Definition kern_of (calls : list call) : Z * Z -> K := run_updates eqZZ (flat_map kh_updates calls) zeros.

Variable phi0 : Z -> K.

(** get_phi0_element 134-164 *)
Definition rho (b bp : nat) (c : Z) : C :=
  let bbp := ind0 L b bp c in
  if (bbp =? -1)%Z then 0 else
  mkC (phi0 bbp)
      (if has_imag bbp then if cnj L b bp c then phi0 (imag_ind bbp) else - phi0 (imag_ind bbp) else 0).

(** KernelHandlerMatrixFree: set_energy 177-188, set_matrix_element 190-223, pauli 225-242 *)
Definition mf_updates (x : call) : list (Z * K) :=
  match x with
  | CEnergy e b bp c =>
      if Nat.eqb b bp then [] else
      let bbp := ind0 L b bp c in
      let d := - Ci K * ofR e * rho b bp c in
      [(bbp, re d); (imag_ind bbp, - im d)]
  | CElem f b bp c a ap ac =>
      let bbp := ind0 L b bp c in
      let d := - Ci K * f * rho a ap ac in
      (bbp, re d) :: (if has_imag bbp then [(imag_ind bbp, - im d)] else [])
  | CPauli fm fp bb aa => [(bb, fm * phi0 bb + fp * phi0 aa)]
  end.
Definition dphi_of (calls : list call) : Z -> K := run_updates Z.eq_dec (flat_map mf_updates calls) zeros.
(** get_phi0_norm 244-253 *)
Definition phi0_norm : K := rsum (fun c => rsum (fun b => phi0 (ind0 L b b c)) (states L c)) (charges L).

(** aprclass.py generate_norm_vec 217-231 *)
Definition norm_vec : Z -> K :=
  run_updates Z.eq_dec
    (flat_map (fun c => map (fun b => (ind0 L b b c, 1)) (states L c)) (charges L)) zeros.

(** aprclass.py generate_kern 236-254; [cpl b bp c] are the calls of generate_coupling_terms *)
Definition generate_kern (E : nat -> K) (cpl : nat -> nat -> Z -> list call) : list call :=
  flat_map (fun c => flat_map (fun p => let '(b, bp) := p in
     if (is_included L b bp c && is_unique L b bp c)%bool
     then CEnergy (E b - E bp) b bp c :: cpl b bp c else [])
    (combinations_wr (states L c))) (charges L).

(** pauli.py generate_kern 58-74 *)
Definition generate_kern_pauli (cpl : nat -> nat -> Z -> list call) : list call :=
  flat_map (fun c => flat_map (fun b => if is_unique L b b c then cpl b b c else []) (states L c)) (charges L).

Variable nleads : nat.
Definition leads : list nat := seq 0 nleads.

(** *** Pauli: base/pauli.py *)
(** the array paulifct[l, cb, q], q = 0 (false) or 1 (true) *)
Section Pauli.
Variable pf : nat -> nat -> bool -> K.
(** generate_coupling_terms 76-100 *)
Definition pauli_coupling (b bp : nat) (bc : Z) : list call :=
  let ac := (bc - 1)%Z in let cc := (bc + 1)%Z in
  let bb := ind0 L b b bc in
  map (fun a => let ba := ind1 L b a ac in
         CPauli (rsum (fun l => - pf l ba true) leads) (rsum (fun l => pf l ba false) leads)
                bb (ind0 L a a ac)) (states L ac) ++
  map (fun c => let cb := ind1 L c b bc in
         CPauli (rsum (fun l => - pf l cb false) leads) (rsum (fun l => pf l cb true) leads)
                bb (ind0 L c c cc)) (states L cc).
Definition pauli_calls : list call := generate_kern_pauli pauli_coupling.
(** generate_current 102-135: contributions to lead l *)
Definition pauli_flow (l c b : nat) (bc : Z) : K :=
  let cb := ind1 L c b bc in
  phi0 (ind0 L b b bc) * pf l cb false + (- phi0 (ind0 L c c (bc + 1))) * pf l cb true.
Definition pauli_current (l : nat) : K :=
  rsum (fun bc => rsum (fun c => rsum (fun b => pauli_flow l c b bc) (states L bc)) (states L (bc + 1))) (charges1 L).
Definition pauli_energy_current (E : nat -> K) (l : nat) : K :=
  rsum (fun bc => rsum (fun c => rsum (fun b => - (E b - E c) * pauli_flow l c b bc) (states L bc)) (states L (bc + 1)))
       (charges1 L).
End Pauli.
(** last line of every generate_current: heat = energy - current*mu *)
Definition heat_of (cur en : nat -> K) (mu : nat -> K) (l : nat) : K := en l - cur l * mu l.

(** *** Lindblad: base/lindblad.py *)
Section Lindblad.
Variables (h : K) (tL : nat -> nat -> nat -> C).
Local Notation half := (ofR h).
(** generate_coupling_terms 54-96; 0.5 is [h] *)
Definition lindblad_coupling (b bp : nat) (bc : Z) : list call :=
  let ac := (bc - 1)%Z in let cc := (bc + 1)%Z in
  flat_map (fun p => let '(a, ap) := p in
     if is_included L a ap ac then
       [CElem (Ci K * rsum (fun l => tL l b a * conj (tL l bp ap)) leads) b bp bc a ap ac] else [])
    (list_prod (states L ac) (states L ac)) ++
  flat_map (fun bpp =>
     (if is_included L bpp bp bc then
        [CElem (Ci K * (rsum (fun a => rsum (fun l => - half * conj (tL l a b) * tL l a bpp) leads) (states L ac) +
                        rsum (fun c => rsum (fun l => - half * conj (tL l c b) * tL l c bpp) leads) (states L cc)))
               b bp bc bpp bp bc] else []) ++
     (if is_included L b bpp bc then
        [CElem (Ci K * (rsum (fun a => rsum (fun l => - half * conj (tL l a bpp) * tL l a bp) leads) (states L ac) +
                        rsum (fun c => rsum (fun l => - half * conj (tL l c bpp) * tL l c bp) leads) (states L cc)))
               b bp bc b bpp bc] else []))
    (states L bc) ++
  flat_map (fun p => let '(c, cp) := p in
     if is_included L c cp cc then
       [CElem (Ci K * rsum (fun l => tL l b c * conj (tL l bp cp)) leads) b bp bc c cp cc] else [])
    (list_prod (states L cc) (states L cc)).
Definition lindblad_calls (E : nat -> K) : list call := generate_kern E lindblad_coupling.
(** generate_current 98-144 *)
Definition lindblad_current (l : nat) : K :=
  rsum (fun bc => rsum (fun p => let '(b, bp) := p in
     if is_included L b bp bc then
       re (rsum (fun a => - (tL l a b * rho b bp bc * conj (tL l a bp))) (states L (bc - 1)) +
           rsum (fun c => tL l c b * rho b bp bc * conj (tL l c bp)) (states L (bc + 1)))
     else 0) (list_prod (states L bc) (states L bc))) (charges L).
Definition lindblad_energy_current (E : nat -> K) (l : nat) : K :=
  rsum (fun bc => rsum (fun p => let '(b, bp) := p in
     if is_included L b bp bc then
       re (rsum (fun a => ofR (E a - h * (E b + E bp)) * (tL l a b * rho b bp bc * conj (tL l a bp))) (states L (bc - 1)) +
           rsum (fun c => ofR (E c - h * (E b + E bp)) * (tL l c b * rho b bp bc * conj (tL l c bp))) (states L (bc + 1)))
     else 0) (list_prod (states L bc) (states L bc))) (charges L).
End Lindblad.

(** *** 1vN and Redfield *)
Section VN1.
Variables (T : nat -> nat -> nat -> C) (F : nat -> nat -> bool -> C).
(** base/neumann1.py generate_coupling_terms 64-117; F l cb q is phi1fct[l, cb, q] *)
Definition vn1_coupling (b bp : nat) (bc : Z) : list call :=
  let ac := (bc - 1)%Z in let cc := (bc + 1)%Z in
  flat_map (fun p => let '(a, ap) := p in
     if is_included L a ap ac then
       let bpa := ind1 L bp a ac in let bap := ind1 L b ap ac in
       [CElem (rsum (fun l => T l b a * T l ap bp * conj (F l bpa false)
                              - T l b a * T l ap bp * F l bap false) leads) b bp bc a ap ac] else [])
    (list_prod (states L ac) (states L ac)) ++
  flat_map (fun bpp =>
     (if is_included L bpp bp bc then
        [CElem (rsum (fun a => let bpa := ind1 L bp a ac in
                  rsum (fun l => T l b a * T l a bpp * conj (F l bpa true)) leads) (states L ac) +
                rsum (fun c => let cbp := ind1 L c bp bc in
                  rsum (fun l => T l b c * T l c bpp * F l cbp false) leads) (states L cc))
               b bp bc bpp bp bc] else []) ++
     (if is_included L b bpp bc then
        [CElem (rsum (fun a => let ba := ind1 L b a ac in
                  rsum (fun l => - T l bpp a * T l a bp * F l ba true) leads) (states L ac) +
                rsum (fun c => let cb := ind1 L c b bc in
                  rsum (fun l => - T l bpp c * T l c bp * conj (F l cb false)) leads) (states L cc))
               b bp bc b bpp bc] else []))
    (states L bc) ++
  flat_map (fun p => let '(c, cp) := p in
     if is_included L c cp cc then
       let cbp := ind1 L c bp bc in let cpb := ind1 L cp b bc in
       [CElem (rsum (fun l => T l b c * T l cp bp * F l cbp true
                              - T l b c * T l cp bp * conj (F l cpb true)) leads) b bp bc c cp cc] else [])
    (list_prod (states L cc) (states L cc)).
Definition vn1_calls (E : nat -> K) : list call := generate_kern E vn1_coupling.
(** base/neumann1.py generate_current 119-182 with the table [F]; the energy current uses
    phi1fct_energy in its place (lines 154-176) *)
Definition vn1_amp (l c b : nat) (bc : Z) : C :=
  let cb := ind1 L c b bc in
  rsum (fun bp => if is_included L bp b bc then T l b c * T l c bp * rho bp b bc * F l cb false else 0) (states L bc) +
  rsum (fun cp => if is_included L c cp (bc + 1) then T l b c * rho c cp (bc + 1) * T l cp b * F l cb true else 0)
       (states L (bc + 1)).
(** -2*x.imag, 2 = 1+1 *)
Definition m2im (x : C) : K := - (1 + 1) * im x.
Definition vn1_current (l : nat) : K :=
  rsum (fun bc => rsum (fun p => let '(c, b) := p in m2im (vn1_amp l c b bc))
                       (list_prod (states L (bc + 1)) (states L bc))) (charges1 L).

(** base/redfield.py generate_coupling_terms 30-83 *)
Definition red_coupling (b bp : nat) (bc : Z) : list call :=
  let ac := (bc - 1)%Z in let cc := (bc + 1)%Z in
  flat_map (fun p => let '(a, ap) := p in
     if is_included L a ap ac then
       let bpap := ind1 L bp ap ac in let ba := ind1 L b a ac in
       [CElem (rsum (fun l => T l b a * T l ap bp * conj (F l bpap false)
                              - T l b a * T l ap bp * F l ba false) leads) b bp bc a ap ac] else [])
    (list_prod (states L ac) (states L ac)) ++
  flat_map (fun bpp =>
     (if is_included L bpp bp bc then
        [CElem (rsum (fun a => let bppa := ind1 L bpp a ac in
                  rsum (fun l => T l b a * T l a bpp * conj (F l bppa true)) leads) (states L ac) +
                rsum (fun c => let cbpp := ind1 L c bpp bc in
                  rsum (fun l => T l b c * T l c bpp * F l cbpp false) leads) (states L cc))
               b bp bc bpp bp bc] else []) ++
     (if is_included L b bpp bc then
        [CElem (rsum (fun a => let bppa := ind1 L bpp a ac in
                  rsum (fun l => - T l bpp a * T l a bp * F l bppa true) leads) (states L ac) +
                rsum (fun c => let cbpp := ind1 L c bpp bc in
                  rsum (fun l => - T l bpp c * T l c bp * conj (F l cbpp false)) leads) (states L cc))
               b bp bc b bpp bc] else []))
    (states L bc) ++
  flat_map (fun p => let '(c, cp) := p in
     if is_included L c cp cc then
       let cpbp := ind1 L cp bp bc in let cb := ind1 L c b bc in
       [CElem (rsum (fun l => T l b c * T l cp bp * F l cpbp true
                              - T l b c * T l cp bp * conj (F l cb true)) leads) b bp bc c cp cc] else [])
    (list_prod (states L cc) (states L cc)).
Definition red_calls (E : nat -> K) : list call := generate_kern E red_coupling.
(** base/redfield.py generate_current 85-135 *)
Definition red_amp (l c b : nat) (bc : Z) : C :=
  rsum (fun bp => if is_included L bp b bc then
                    let cbp := ind1 L c bp bc in T l b c * T l c bp * rho bp b bc * F l cbp false else 0) (states L bc) +
  rsum (fun cp => if is_included L c cp (bc + 1) then
                    let cpb := ind1 L cp b bc in T l b c * rho c cp (bc + 1) * T l cp b * F l cpb true else 0)
       (states L (bc + 1)).
Definition red_current (l : nat) : K :=
  rsum (fun bc => rsum (fun p => let '(c, b) := p in m2im (red_amp l c b bc))
                       (list_prod (states L (bc + 1)) (states L bc))) (charges1 L).
End VN1.
End Kernel.
