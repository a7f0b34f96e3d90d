(** The life of an approach object: cached arrays, options and solve calls.
    qmeq/approach/aprclass.py setters 63-102, restart 119-133, prepare_kern 140-150, clean_arrays 152-159,
    prepare_arrays 161-188, prepare_kernel_handler 190-194, prepare_solver 196-211, generate_vec 262-292,
    solve_kern 298-333, solve_matrix_free 335-353, solve 363-393.
    The overriding prepare_arrays/clean_arrays of pauli.py 22-29, lindblad.py 20-27, neumann1.py 20-31, redfield.py 21-25
    and of the elph approaches allocate further arrays (the factors, phi1) and fill the same ones with zeros. *)
From Coq Require Import String List Arith Lia ZArith Bool.
From Verif Require Import Base DMIndex CRing Layout Kernel MatrixFree.
Import ListNotations.
Open Scope nat_scope.
Local Notation length := List.length.

(** Values of funcp.solmethod.  [SmOther] is any string but 'solve', 'lsqr' and 'lsmr'. *)
Inductive sm := SmNone | SmSolve | SmLsqr | SmLsmr | SmOther (s : string).
(** The comparisons of solve_kern 318-321. *)
Definition sm_kind (m : sm) : solmethod := match m with SmSolve => MSolve | SmLsqr => MLsqr | _ => MOther end.

Record Opts := mkOpts { o_symq : bool; o_norm_row : Z; o_mfreeq : bool; o_solmethod : sm }.
Definition with_symq (b : bool) (o : Opts) := mkOpts b (o_norm_row o) (o_mfreeq o) (o_solmethod o).
Definition with_norm_row (r : Z) (o : Opts) := mkOpts (o_symq o) r (o_mfreeq o) (o_solmethod o).
Definition with_mfreeq (b : bool) (o : Opts) := mkOpts (o_symq o) (o_norm_row o) b (o_solmethod o).
Definition with_solmethod (m : sm) (o : Opts) := mkOpts (o_symq o) (o_norm_row o) (o_mfreeq o) m.

(** prepare_solver 196-211 *)
Definition prepare_solver (o : Opts) : Opts :=
  if o_mfreeq o then with_solmethod (match o_solmethod o with SmNone => SmOther "krylov" | m => m end) o
  else
    let m1 := match o_solmethod o with SmNone => if o_symq o then SmSolve else SmLsqr | m => m end in
    let m2 := if o_symq o then m1 else match m1 with SmLsqr => SmLsqr | SmLsmr => SmLsmr | _ => SmLsqr end in
    with_solmethod m2 o.

Section Machine.
Variable K : CRing.
Local Open Scope rng_scope.
(** [Sel]: what si and si_elph hold; [P]: the physical parameters (qd, leads, baths) and itype etc.;
    [V]: the entries of the remaining arrays.  What an approach adds is arbitrary:
    [kern_size] get_kern_size, [lay] the numbering tables, [fct_shape], [cur_shape] the shapes of its arrays. *)
Variables (Sel P V : Type) (v0 : V).
Variable lay : Sel -> Lay.
Variable kern_size : Sel -> nat.
Variables fct_shape cur_shape : Sel -> list (list nat).

(** A group of numpy arrays: their shapes, and the entry of array [k] at an index. *)
Record Arrs := mkArrs { ar_shape : list (list nat); ar_val : nat -> list nat -> V }.
Definition ar_zeros (sh : list (list nat)) : Arrs := mkArrs sh (fun _ _ => v0).
Definition ar_fill0 (a : Arrs) : Arrs := ar_zeros (ar_shape a).

(** Generators; they assign entries of existing arrays.  [true] in the second component: an exception was raised after the given part of the work. *)
Variable gen_fct : Sel -> P -> Arrs -> (nat -> list nat -> V) * bool.
Variable gen_calls : Sel -> P -> Arrs -> list (call K) * bool.
Variable gen_cur : Sel -> P -> Arrs -> (Z -> K) -> Arrs -> (nat -> list nat -> V) * bool.
(** numpy's solvers on a rows x cols system, [None] = raised.  scipy's root: the solution and its success flag, or
    [None] if it raised; and the vector of its last evaluation, [None] if it raised before any. *)
Variable lin : solmethod -> nat -> nat -> (Z * Z -> K) -> (Z -> K) -> option (Z -> K).
Variable root : ((Z -> K) -> Z -> K) -> nat -> sm -> option ((Z -> K) * bool) * option (Z -> K).

(** kern with its shape, bvec, norm_vec and replaced_eq are created together. *)
Record Dense := mkDense { d_rows : nat; d_cols : nat; d_kern : Z * Z -> K; d_bvec : Z -> K;
                          d_norm : Z -> K; d_replaced : Z -> K }.
Inductive handler := HNone | HMatrix | HFree.
Record App := mkApp {
  a_prepared : bool; a_handler : handler;
  a_dense : option Dense;            (* kern, bvec, norm_vec, replaced_eq; None before the first preparation *)
  a_dphi : option nat;               (* dphi0_dt, by its length *)
  a_phi_len : option nat; a_phi0 : Z -> K; a_kh_phi0 : Z -> K;
  a_sol0 : option (nat * (Z -> K));  (* sol0[0] with its length *)
  a_success : option bool;
  a_fct : Arrs; a_cur : Arrs }.

(** restart 119-133; [success] is no attribute yet *)
Definition app_new : App :=
  mkApp false HNone None None None zeros zeros None None (mkArrs [] (fun _ _ => v0)) (mkArrs [] (fun _ _ => v0)).

Record St := mkSt { s_sel : Sel; s_changed : bool; s_par : P; s_opts : Opts; s_app : App }.
Definition with_app (a : App) (s : St) : St := mkSt (s_sel s) (s_changed s) (s_par s) (s_opts s) a.

(** clean_arrays 152-159 *)
Definition clean_arrays (mf : bool) (a : App) : option App :=
  let cleared d := mkApp (a_prepared a) (a_handler a) d (a_dphi a) (a_phi_len a) (a_phi0 a) (a_kh_phi0 a)
                     (a_sol0 a) (a_success a) (ar_fill0 (a_fct a)) (ar_fill0 (a_cur a)) in
  if mf then Some (cleared (a_dense a))
  else match a_dense a with
       | None => None                (* None.fill *)
       | Some d => Some (cleared (Some (mkDense (d_rows d) (d_cols d) zeros zeros (d_norm d) (d_replaced d))))
       end.

(** prepare_kernel_handler 190-194, prepare_arrays 161-188 *)
Definition prepare_arrays (mf symq : bool) (sel : Sel) (a : App) : App :=
  let n := kern_size sel in
  mkApp (a_prepared a) (if mf then HFree else HMatrix)
        (if mf then a_dense a
         else Some (mkDense (if symq then n else S n) n zeros zeros (norm_vec K (lay sel)) zeros))
        (if mf then Some n else a_dphi a)
        (Some n) zeros zeros (a_sol0 a) (a_success a)
        (ar_zeros (fct_shape sel)) (ar_zeros (cur_shape sel)).

(** prepare_kern 140-150 *)
Definition prepare_kern (s : St) : option St :=
  if (a_prepared (s_app s) && negb (s_changed s))%bool
  then option_map (fun a => with_app a s) (clean_arrays (o_mfreeq (s_opts s)) (s_app s))
  else
    let a := prepare_arrays (o_mfreeq (s_opts s)) (o_symq (s_opts s)) (s_sel s) (s_app s) in
    Some (mkSt (s_sel s) false (s_par s) (prepare_solver (s_opts s))
            (mkApp true (a_handler a) (a_dense a) (a_dphi a) (a_phi_len a) (a_phi0 a) (a_kh_phi0 a) (a_sol0 a)
               (a_success a) (a_fct a) (a_cur a))).

Definition set_fct (f : nat -> list nat -> V) (a : App) : App :=
  mkApp (a_prepared a) (a_handler a) (a_dense a) (a_dphi a) (a_phi_len a) (a_phi0 a) (a_kh_phi0 a) (a_sol0 a)
        (a_success a) (mkArrs (ar_shape (a_fct a)) f) (a_cur a).
Definition set_cur (c : nat -> list nat -> V) (a : App) : App :=
  mkApp (a_prepared a) (a_handler a) (a_dense a) (a_dphi a) (a_phi_len a) (a_phi0 a) (a_kh_phi0 a) (a_sol0 a)
        (a_success a) (a_fct a) (mkArrs (ar_shape (a_cur a)) c).
Definition set_dense (d : Dense) (a : App) : App :=
  mkApp (a_prepared a) (a_handler a) (Some d) (a_dphi a) (a_phi_len a) (a_phi0 a) (a_kh_phi0 a) (a_sol0 a)
        (a_success a) (a_fct a) (a_cur a).

(** Additions to kern until one is outside the array (IndexError). *)
Definition inside (rows cols : nat) (u : (Z * Z) * K) : bool :=
  ((0 <=? fst (fst u)) && (fst (fst u) <? Z.of_nat rows) && (0 <=? snd (fst u)) && (snd (fst u) <? Z.of_nat cols))%Z%bool.
Fixpoint add_all (rows cols : nat) (us : list ((Z * Z) * K)) (m : Z * Z -> K) : (Z * Z -> K) * bool :=
  match us with
  | [] => (m, false)
  | u :: r => if inside rows cols u then add_all rows cols r (run_updates eqZZ [u] m) else (m, true)
  end.

(** generate_kern through the handler in use; KernelHandlerMatrixFree does not touch kern. *)
Definition generate_kern (s : St) (d : Dense) (a : App) : Dense * bool :=
  let '(calls, raised) := gen_calls (s_sel s) (s_par s) (a_fct a) in
  match a_handler a with
  | HMatrix =>
      let '(m, out) := add_all (d_rows d) (d_cols d) (flat_map (kh_updates K (lay (s_sel s))) calls) (d_kern d) in
      (mkDense (d_rows d) (d_cols d) m (d_bvec d) (d_norm d) (d_replaced d), (out || raised)%bool)
  | _ => (d, raised)
  end.

(** solve_kern 298-333; phi0[:] = sol0[0] needs equal lengths, or length 1 *)
Definition solve_kern (o : Opts) (d : Dense) (a : App) : App :=
  let symq := o_symq o in
  let r := if symq then o_norm_row o else Z.of_nat (d_rows d - 1) in
  let replaced := if symq then (fun j => d_kern d (r, j)) else d_replaced d in
  let kern1 := replace_row K (d_kern d) r (d_norm d) in
  let bvec1 := set_entry K (d_bvec d) r 1 in
  let attempt := match sm_kind (o_solmethod o) with
                 | MOther => Some (a_sol0 a)
                 | m => option_map (fun x => Some (d_cols d, x)) (lin m (d_rows d) (d_cols d) kern1 bvec1)
                 end in
  let d' := mkDense (d_rows d) (d_cols d) (if symq then replace_row K kern1 r replaced else kern1) bvec1 (d_norm d) replaced in
  let done sol phi ok := mkApp (a_prepared a) (a_handler a) (Some d') (a_dphi a) (a_phi_len a) phi
                           (match a_handler a with HMatrix => phi | _ => a_kh_phi0 a end) sol (Some ok) (a_fct a) (a_cur a) in
  match attempt with
  | None => done (a_sol0 a) zeros false
  | Some None => done None zeros false
  | Some (Some (n, x)) =>
      if match a_phi_len a with Some p => n =? p | None => false end then done (Some (n, x)) x true
      else if n =? 1 then done (Some (n, x)) (fun _ => x 0%Z) true
      else done (Some (n, x)) zeros false
  end.

(** solve_matrix_free 335-353 with phi0_init = None (set_phi0_init 355-358).  A handler without get_phi0_norm, or
    dphi0_dt = None, makes generate_vec raise at its first evaluation; the exception is caught.  generate_vec hands
    its argument to the handler (282), which keeps the last one. *)
Definition phi_init : Z -> K := fun i => if Z.eq_dec i 0 then 1 else 0.
Definition solve_matrix_free (s : St) (a : App) : App :=
  let '(calls, raised) := gen_calls (s_sel s) (s_par s) (a_fct a) in
  let fail last := mkApp (a_prepared a) (a_handler a) (a_dense a) (a_dphi a) (a_phi_len a) zeros
                     (match last with Some v => v | None => a_kh_phi0 a end) (a_sol0 a) (Some false) (a_fct a) (a_cur a) in
  let n := match a_dphi a with Some n => n | None => 0%nat end in
  let '(res, last) := root (generate_vec K (lay (s_sel s)) calls (o_norm_row (s_opts s))) n (o_solmethod (s_opts s)) in
  match a_handler a, a_dphi a, raised with
  | HFree, Some _, false =>
      match res with
      | None => fail last
      | Some (x, ok) =>
          mkApp (a_prepared a) (a_handler a) (a_dense a) (a_dphi a) (a_phi_len a) x
            (match last with Some v => v | None => a_kh_phi0 a end) (Some (n, x)) (Some ok) (a_fct a) (a_cur a)
      end
  | _, _, _ => fail (match last with Some _ => Some phi_init | None => None end)
  end.

(** solve 363-393 with masterq=True; the second component says whether it raised *)
Definition solve (currentq : bool) (s0 : St) : St * bool :=
  match prepare_kern s0 with
  | None => (s0, true)
  | Some s1 =>
      let '(f, r1) := gen_fct (s_sel s1) (s_par s1) (a_fct (s_app s1)) in
      let a1 := set_fct f (s_app s1) in
      let s2 := with_app a1 s1 in
      if r1 then (s2, true) else
      let '(a2, r2) :=
        if o_mfreeq (s_opts s1) then (solve_matrix_free s2 a1, false)
        else match a_dense a1 with
             | None => (a1, true)
             | Some d => let '(d', r) := generate_kern s2 d a1 in
                         if r then (set_dense d' a1, true) else (solve_kern (s_opts s1) d' (set_dense d' a1), false)
             end in
      if r2 then (with_app a2 s2, true) else
      if currentq then
        let '(c, r3) := gen_cur (s_sel s1) (s_par s1) (a_fct a2) (a_kh_phi0 a2) (a_cur a2) in
        (with_app (set_cur c a2) s2, r3)
      else (with_app a2 s2, false)
  end.

(** ** What a user may do *)
Inductive op :=
| ParChange (p : P)            (* add, change, diagonalise, rotate, itype, ...: anything outside the approach *)
| Select (x : Sel)             (* set_statesdm 728, 907, 1109, remove_fock_states 666, change_si 172: states_changed = True *)
| Coherences (x : Sel)         (* remove_coherences: new numbering tables, the flag is left alone *)
| SetSymq (b : bool)
| SetNormRow (r : Z)
| SetMethod (m : sm)
| SetMfree (b : bool)
| Solve (currentq : bool).

Definition step (s : St) (x : op) : St :=
  match x with
  | ParChange p => mkSt (s_sel s) (s_changed s) p (s_opts s) (s_app s)
  | Select z => mkSt z true (s_par s) (s_opts s) (s_app s)
  | Coherences z => mkSt z (s_changed s) (s_par s) (s_opts s) (s_app s)
  | SetSymq b =>
      if Bool.eqb b (o_symq (s_opts s)) then s
      else let a := s_app s in
        mkSt (s_sel s) (s_changed s) (s_par s) (with_symq b (s_opts s))
          (mkApp false (a_handler a) (a_dense a) (a_dphi a) (a_phi_len a) (a_phi0 a) (a_kh_phi0 a) (a_sol0 a) (a_success a)
             (a_fct a) (a_cur a))
  | SetNormRow r => mkSt (s_sel s) (s_changed s) (s_par s) (with_norm_row r (s_opts s)) (s_app s)
  | SetMethod m => mkSt (s_sel s) (s_changed s) (s_par s) (prepare_solver (with_solmethod m (s_opts s))) (s_app s)
  | SetMfree b => mkSt (s_sel s) (s_changed s) (s_par s) (with_mfreeq b (s_opts s)) (s_app s)
  | Solve cq => fst (solve cq s)
  end.
Definition run (h : list op) (s : St) : St := fold_left step h s.
End Machine.
