(** The compiled kernel handler and the parallel assembly of the kernel:
    qmeq/approach/c_kernel_handler.pyx (class KernelHandler 24-200), qmeq/approach/c_aprclass.pyx generate_kern
    190-201, and the compiled coupling terms of qmeq/approach/base/c_pauli.pyx 82-121, c_lindblad.pyx 80-151,
    c_neumann1.pyx 87-167, c_redfield.pyx 46-126. *)
From Coq Require Import String List Arith Lia ZArith Bool Permutation.
From Verif Require Import Base DMIndex CRing Layout Kernel.
Import ListNotations.
Open Scope nat_scope.
Local Notation length := List.length.

(** ** set_statesdm 58-73: the lists of states as a rectangle of longs; entries that would fall outside the rectangle are lost *)
Definition max_states (L : Lay) : nat := fold_left Nat.max (map (@length nat) (ly_statesdm L)) 0.
Definition c_count (L : Lay) : list nat := map (@length nat) (ly_statesdm L).
Definition c_statesdm (L : Lay) : list (list nat) :=
  map (fun l => firstn (max_states L) (l ++ repeat 0 (max_states L))) (ly_statesdm L).
(** [self.statesdm[c, i]]; None = outside the rectangle (the file is compiled with boundscheck=False) *)
Definition c_state (L : Lay) (c i : nat) : option nat :=
  match nth_error (c_statesdm L) c with Some row => nth_error row i | None => None end.
(** the loop [for i in range(count)] over [statesdm[c, i]] with the guards of the coupling terms,
    [count = statesdm_count[c] if c >= 0 else 0] and [… if c <= ncharge else 0] *)
Definition c_states (L : Lay) (c : Z) : list nat :=
  if (c <? 0)%Z then [] else if (Z.of_nat (ly_ncharge L) <? c)%Z then [] else
  map (fun i => nth i (nth (Z.to_nat c) (c_statesdm L) []) 0) (seq 0 (nth (Z.to_nat c) (c_count L) 0)).

(** ** set_all_bbp 75-92 *)
(** rows b, bp, charge *)
Definition row := (nat * nat * nat)%type.
(** a loop whose body gives the rows it writes, or reads outside an array *)
Fixpoint oflat {A B} (f : A -> option (list B)) (l : list A) : option (list B) :=
  match l with
  | [] => Some []
  | x :: r => match f x, oflat f r with Some u, Some v => Some (u ++ v) | _, _ => None end
  end.
(** [all_bbp[ind, :] = …; ind += 1]; None = a row outside the array *)
Fixpoint write_rows (rs : list row) (ind : nat) (mem : list row) : option (list row) :=
  match rs with
  | [] => Some mem
  | r :: rs' => if ind <? length mem then write_rows rs' (S ind) (set_nth ind r mem) else None
  end.
Section Handler.
Variables (no_coh no_conj : bool) (L : Lay).
Definition nelements : nat := if no_coh then ly_npauli L else ly_ndm0 L.
(** body for (bcharge, i, j) *)
Definition bbp_at (c i j : nat) : option (list row) :=
  if (no_coh && negb (i =? j))%bool then Some [] else
  match c_state L c i, c_state L c j with
  | Some b, Some bp =>
      match nth_error (ly_booldm0 L) (slot_at L b bp (Z.of_nat c)) with
      | Some u => Some (if u then [(b, bp, c)] else [])
      | None => None
      end
  | _, _ => None
  end.
Definition bbp_rows : option (list row) :=
  oflat (fun c => let n := nth c (c_count L) 0 in
     oflat (fun i => let lo := if no_conj then i else 0 in oflat (bbp_at c i) (seq lo (n - lo))) (seq 0 n))
   (seq 0 (ly_ncharge L)).
Definition set_all_bbp : option (list row) :=
  match bbp_rows with
  | None => None
  | Some rs => write_rows rs 0 (repeat (0, 0, 0) nelements)
  end.
End Handler.

(** ** set_all_ba 94-108: rows b, a, acharge *)
Definition ba_rows (L : Lay) : option (list row) :=
  oflat (fun bc => let ac := bc - 1 in
     oflat (fun i => oflat (fun j => match c_state L bc i, c_state L ac j with
                                     | Some b, Some a => Some [(b, a, ac)] | _, _ => None end)
        (seq 0 (nth ac (c_count L) 0))) (seq 0 (nth bc (c_count L) 0)))
   (seq 1 (ly_ncharge L - 1)).
Definition set_all_ba (L : Lay) : option (list row) :=
  match ba_rows L with
  | None => None
  | Some rs => write_rows rs 0 (repeat (0, 0, 0) (ly_ndm1 L))
  end.

(** ** Threads *)
(** [prange]: the iterations run on several threads in no given order.  Every update [kern[x] = kern[x] + v] is a load
    and a store; other threads may run in between.  A thread is the list of its updates that remain and the value it
    has loaded. *)
Section Threads.
Variables (I V : Type) (ieq : forall a b : I, {a = b} + {a <> b}) (add : V -> V -> V).
Definition prog := list (I * V).
Record machine := mkM { mem : I -> V; rest : nat -> prog; reg : nat -> option V }.
Definition set_at {A} (t : nat) (v : A) (f : nat -> A) : nat -> A := fun s => if s =? t then v else f s.
Definition step (m : machine) (t : nat) : machine :=
  match rest m t with
  | [] => m
  | (x, v) :: r =>
      match reg m t with
      | None => mkM (mem m) (rest m) (set_at t (Some (mem m x)) (reg m))
      | Some w => mkM (fun i => if ieq i x then add w v else mem m i) (set_at t r (rest m)) (set_at t None (reg m))
      end
  end.
Definition start (ps : list prog) (m0 : I -> V) : machine := mkM m0 (fun t => nth t ps []) (fun _ => None).
Definition run_sched (sched : list nat) (m : machine) : machine := fold_left step sched m.
Definition finished (m : machine) : Prop := forall t, rest m t = [].
(** the same updates one after the other *)
Definition run_seq (us : prog) (m0 : I -> V) : I -> V :=
  fold_left (fun m u => fun i => if ieq i (fst u) then add (m i) (snd u) else m i) us m0.
End Threads.
Arguments mem {_ _}. Arguments rest {_ _}. Arguments reg {_ _}. Arguments start {_ _}. Arguments run_sched {_ _}.
Arguments finished {_ _}. Arguments run_seq {_ _}. Arguments step {_ _}.

(** ** The calls of one iteration *)
Section Calls.
Variable K : CRing.
Local Notation C := (Cx K).
Local Open Scope rng_scope.
Variable L : Lay.
(** set_energy 129-140 returns when b == bp (the Python method tests the index); the other methods are as in Python *)
Definition c_updates (x : call K) : list ((Z * Z) * K) :=
  match x with
  | CEnergy _ e b bp c =>
      if (b =? bp)%nat then [] else
      let bbp := ind0 L b bp c in
      let bbpi := imag_ind L bbp in
      [((bbp, bbpi), e); ((bbpi, bbp), - e)]
  | _ => kh_updates K L x
  end.
(** iteration i of the loop of generate_kern *)
Definition c_iter (E : nat -> K) (cpl : nat -> nat -> Z -> list (call K)) (r : row) : list (call K) :=
  let '(b, bp, c) := r in CEnergy K (E b - E bp) b bp (Z.of_nat c) :: cpl b bp (Z.of_nat c).
Definition kern_progs (E : nat -> K) cpl (rs : list row) : list (list ((Z * Z) * K)) :=
  map (fun r => flat_map c_updates (c_iter E cpl r)) rs.
(** the same with KernelHandlerMatrixFree, whose methods are as in Python: dphi0_dt *)
Definition vec_progs (phi0 : Z -> K) (E : nat -> K) cpl (rs : list row) : list (list (Z * K)) :=
  map (fun r => flat_map (mf_updates K L phi0) (c_iter E cpl r)) rs.

(** ** Coupling terms *)
Variable nleads : nat.
Local Notation leads := (leads nleads).
Section Pauli.
Variable pf : nat -> nat -> bool -> K.
(** c_pauli.pyx generate_coupling_terms 82-121 *)
Definition c_pauli_coupling (b bp : nat) (bc : Z) : list (call K) :=
  let ac := (bc - 1)%Z in let cc := (bc + 1)%Z in
  let bb := ind0 L b b bc in
  map (fun a => let ba := ind1 L b a ac in
         CPauli K (rsum (fun l => - pf l ba true) leads) (rsum (fun l => pf l ba false) leads)
                bb (ind0 L a a ac)) (c_states L ac) ++
  map (fun c => let cb := ind1 L c b bc in
         CPauli K (rsum (fun l => - pf l cb false) leads) (rsum (fun l => pf l cb true) leads)
                bb (ind0 L c c cc)) (c_states L cc).
End Pauli.
Section Lindblad.
Variables (h : K) (tL : nat -> nat -> nat -> C).
Local Notation half := (ofR h).
(** c_lindblad.pyx generate_coupling_terms 80-151 *)
Definition c_lindblad_coupling (b bp : nat) (bc : Z) : list (call K) :=
  let ac := (bc - 1)%Z in let cc := (bc + 1)%Z in
  flat_map (fun p => let '(a, ap) := p in
     if is_included L a ap ac then
       [CElem K (Ci K * rsum (fun l => tL l b a * conj (tL l bp ap)) leads) b bp bc a ap ac] else [])
    (list_prod (c_states L ac) (c_states L ac)) ++
  flat_map (fun bpp =>
     (if is_included L bpp bp bc then
        [CElem K (Ci K * (rsum (fun a => rsum (fun l => - half * conj (tL l a b) * tL l a bpp) leads) (c_states L ac) +
                        rsum (fun c => rsum (fun l => - half * conj (tL l c b) * tL l c bpp) leads) (c_states L cc)))
               b bp bc bpp bp bc] else []) ++
     (if is_included L b bpp bc then
        [CElem K (Ci K * (rsum (fun a => rsum (fun l => - half * conj (tL l a bpp) * tL l a bp) leads) (c_states L ac) +
                        rsum (fun c => rsum (fun l => - half * conj (tL l c bpp) * tL l c bp) leads) (c_states L cc)))
               b bp bc b bpp bc] else []))
    (c_states L bc) ++
  flat_map (fun p => let '(c, cp) := p in
     if is_included L c cp cc then
       [CElem K (Ci K * rsum (fun l => tL l b c * conj (tL l bp cp)) leads) b bp bc c cp cc] else [])
    (list_prod (c_states L cc) (c_states L cc)).
End Lindblad.
Section VN1.
Variables (T : nat -> nat -> nat -> C) (F : nat -> nat -> bool -> C).
(** c_neumann1.pyx generate_coupling_terms 87-167 *)
Definition c_vn1_coupling (b bp : nat) (bc : Z) : list (call K) :=
  let ac := (bc - 1)%Z in let cc := (bc + 1)%Z in
  flat_map (fun p => let '(a, ap) := p in
     if is_included L a ap ac then
       let bpa := ind1 L bp a ac in let bap := ind1 L b ap ac in
       [CElem K (rsum (fun l => T l b a * T l ap bp * conj (F l bpa false)
                              - T l b a * T l ap bp * F l bap false) leads) b bp bc a ap ac] else [])
    (list_prod (c_states L ac) (c_states L ac)) ++
  flat_map (fun bpp =>
     (if is_included L bpp bp bc then
        [CElem K (rsum (fun a => let bpa := ind1 L bp a ac in
                  rsum (fun l => T l b a * T l a bpp * conj (F l bpa true)) leads) (c_states L ac) +
                rsum (fun c => let cbp := ind1 L c bp bc in
                  rsum (fun l => T l b c * T l c bpp * F l cbp false) leads) (c_states L cc))
               b bp bc bpp bp bc] else []) ++
     (if is_included L b bpp bc then
        [CElem K (rsum (fun a => let ba := ind1 L b a ac in
                  rsum (fun l => - T l bpp a * T l a bp * F l ba true) leads) (c_states L ac) +
                rsum (fun c => let cb := ind1 L c b bc in
                  rsum (fun l => - T l bpp c * T l c bp * conj (F l cb false)) leads) (c_states L cc))
               b bp bc b bpp bc] else []))
    (c_states L bc) ++
  flat_map (fun p => let '(c, cp) := p in
     if is_included L c cp cc then
       let cbp := ind1 L c bp bc in let cpb := ind1 L cp b bc in
       [CElem K (rsum (fun l => T l b c * T l cp bp * F l cbp true
                              - T l b c * T l cp bp * conj (F l cpb true)) leads) b bp bc c cp cc] else [])
    (list_prod (c_states L cc) (c_states L cc)).
(** c_redfield.pyx generate_coupling_terms 46-126 *)
Definition c_red_coupling (b bp : nat) (bc : Z) : list (call K) :=
  let ac := (bc - 1)%Z in let cc := (bc + 1)%Z in
  flat_map (fun p => let '(a, ap) := p in
     if is_included L a ap ac then
       let bpap := ind1 L bp ap ac in let ba := ind1 L b a ac in
       [CElem K (rsum (fun l => T l b a * T l ap bp * conj (F l bpap false)
                              - T l b a * T l ap bp * F l ba false) leads) b bp bc a ap ac] else [])
    (list_prod (c_states L ac) (c_states L ac)) ++
  flat_map (fun bpp =>
     (if is_included L bpp bp bc then
        [CElem K (rsum (fun a => let bppa := ind1 L bpp a ac in
                  rsum (fun l => T l b a * T l a bpp * conj (F l bppa true)) leads) (c_states L ac) +
                rsum (fun c => let cbpp := ind1 L c bpp bc in
                  rsum (fun l => T l b c * T l c bpp * F l cbpp false) leads) (c_states L cc))
               b bp bc bpp bp bc] else []) ++
     (if is_included L b bpp bc then
        [CElem K (rsum (fun a => let bppa := ind1 L bpp a ac in
                  rsum (fun l => - T l bpp a * T l a bp * F l bppa true) leads) (c_states L ac) +
                rsum (fun c => let cbpp := ind1 L c bpp bc in
                  rsum (fun l => - T l bpp c * T l c bp * conj (F l cbpp false)) leads) (c_states L cc))
               b bp bc b bpp bc] else []))
    (c_states L bc) ++
  flat_map (fun p => let '(c, cp) := p in
     if is_included L c cp cc then
       let cpbp := ind1 L cp bp bc in let cb := ind1 L c b bc in
       [CElem K (rsum (fun l => T l b c * T l cp bp * F l cpbp true
                              - T l b c * T l cp bp * conj (F l cb true)) leads) b bp bc c cp cc] else [])
    (list_prod (c_states L cc) (c_states L cc)).
End VN1.
End Calls.
