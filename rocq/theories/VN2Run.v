(** Calls of solve of the 2vN approach.
    qmeq/approach/aprclass.py ApproachBase2vN.__init__ 470-491, restart 493-509, iteration 558-571, solve 573-610, Iterations2vN 412-423;
    qmeq/approach/base/neumann2.py prepare_kern 108-113, make_Ek_grid 128-150. *)
From Coq Require Import List Arith Lia ZArith Bool Reals.
From Verif Require Import Base DMIndex CRing Layout Kernel Rates VN2K Hilbert VN2Grid VN2Iter VN2Solve.
Import ListNotations.
Local Notation Cr := (Cx RRing).
Local Open Scope R_scope.

Section Run.
Variables (L : Lay) (nl : nat).
(** np.linalg.inv *)
Variable linv : (nat * nat -> Cr) -> option (nat * nat -> Cr).
(** The Hamiltonian and tunnelling parameters, and the eigenenergies and amplitudes that diagonalise and rotate make of them *)
Variables (Sys : Type) (en : Sys -> nat -> R) (am : Sys -> nat -> nat -> nat -> Cr).
(** What generate_kern, solve_kern and generate_current store for an iteration, from niter, Ea, Tba, mulst, phi1_phi0 and e_phi1_phi0.
    The arrays kern, bvec, phi1_phi0, ... are zeroed by prepare_kern before. *)
Variables (Res : Type) (res : Z -> (nat -> R) -> (nat -> nat -> nat -> Cr) -> (nat -> R) -> (nat -> nat -> Z -> Cr) -> (nat -> nat -> Z -> Cr) -> Res).

(** funcp.kpnt, leads.dlst, funcp.ext_fct, leads.mulst, leads.tlst *)
Record Par := mkPar { par_kpnt : option nat; par_dlst : list (R * R); par_ext : R; par_mu : nat -> R; par_temp : nat -> R; par_sys : Sys }.
(** the builder and approach objects: parameters, Ea, Tba, Ek_grid, ht_ker, what was prepared, the iteration (None: the arrays are left in
    the middle of an iteration by an exception), iters *)
Record St := mkSt { st_par : Par; st_E : nat -> R; st_T : nat -> nat -> nat -> Cr; st_grid : Grid; st_ker : option (list Cr);
  st_prep : option Prep; st_vs : option VS; st_iters : list Res }.
(** __init__: Ek_grid = zeros(1) *)
Definition new (par : Par) (E : nat -> R) (T : nat -> nat -> nat -> Cr) : St := mkSt par E T (mkGrid 0 0 [0]) None None (Some fresh) [].
(** restart 493-509; Ek_grid, Ek_grid_ext, the Fermi functions and ht_ker stay *)
Definition restart (s : St) : St := mkSt (st_par s) (st_E s) (st_T s) (st_grid s) (st_ker s) (st_prep s) (Some fresh) [].
Definition with_grid (s : St) (g : Grid) : St := mkSt (st_par s) (st_E s) (st_T s) g (st_ker s) (st_prep s) (st_vs s) (st_iters s).
Definition with_prep (s : St) (p : Prep) : St := mkSt (st_par s) (st_E s) (st_T s) (st_grid s) (Some (p_ker p)) (Some p) (st_vs s) (st_iters s).
Definition with_vs (s : St) (v : option VS) (r : list Res) : St :=
  mkSt (st_par s) (st_E s) (st_T s) (st_grid s) (st_ker s) (st_prep s) v (st_iters s ++ r).

(** determine_grid_ext needs two different points: Ek_grid[1] (IndexError) and np.arange with a step (ZeroDivisionError) *)
Definition usable (g : Grid) : bool :=
  match g_Ek g with x :: y :: _ => if Req_EM_T x y then false else true | _ => false end.
(** Ek_grid[0] of an empty array is an IndexError, 140 *)
Definition no_first (par : Par) (g : Grid) : bool := match par_dlst par, g_Ek g with _ :: _, [] => true | _, _ => false end.
Definition niter (s : St) : Z := match st_vs s with Some v => vs_niter v | None => 0 end.
(** prepare_kern 108-113.  [inl]: an exception. *)
Definition begin (s : St) : St + St :=
  match st_vs s with
  | None => inl s
  | Some v =>
    if vs_zeroth v then
      if no_first (st_par s) (st_grid s) then inl s else
      match make_Ek_grid (par_kpnt (st_par s)) (par_dlst (st_par s)) (st_grid s) with
      | None => inl s
      | Some (g', changed) =>
        let s1 := with_grid s g' in
        let s2 := if changed && negb (niter s1 =? -1)%Z then restart s1 else s1 in
        if usable g' then
          match prepare L (st_E s) (par_mu (st_par s)) (par_temp (st_par s)) (par_kpnt (st_par s)) (par_dlst (st_par s)) (par_ext (st_par s)) (st_grid s) (st_ker s) with
          | Some (_, p) => inr (with_prep s2 p)
          | None => inl s2
          end
        else inl s2
      end
    else inr s
  end.
(** iteration 558-571; the second component: an exception was raised *)
Definition step (s : St) : St * bool :=
  match begin s with
  | inl s' => (s', true)
  | inr s' =>
    match st_prep s', st_vs s' with
    | Some p, Some v =>
      match VN2Solve.iteration L nl (st_E s') (st_T s') linv p v with
      | None => (with_vs s' None [], true)
      | Some v' =>
        (with_vs s' (Some v') [res (vs_niter v') (st_E s') (st_T s') (par_mu (st_par s'))
            (phi1_phi0 (g_Ek (st_grid s')) v') (e_phi1_phi0 (g_Ek (st_grid s')) v')], false)
      end
    | _, _ => (s', true)
    end
  end.
Fixpoint steps (n : nat) (s : St) : St * bool :=
  match n with O => (s, false) | S n' => let '(s', e) := step s in if e then (s', true) else steps n' s' end.
(** solve 597-610 *)
Definition diag (qdq rotateq : bool) (s : St) : St :=
  mkSt (st_par s) (if qdq then en (par_sys (st_par s)) else st_E s) (if qdq && rotateq then am (par_sys (st_par s)) else st_T s)
    (st_grid s) (st_ker s) (st_prep s) (st_vs s) (st_iters s).
Definition solve (qdq rotateq masterq restartq : bool) (n : option nat) (s : St) : St * bool :=
  let s1 := if restartq then restart s else s in
  let s2 := diag qdq rotateq s1 in
  if masterq then match n with None => (s2, true) | Some n => steps n s2 end else (s2, false).
(** what a user does with the objects *)
Definition set_par (par : Par) (s : St) : St := mkSt par (st_E s) (st_T s) (st_grid s) (st_ker s) (st_prep s) (st_vs s) (st_iters s).
Inductive op := Set_ (par : Par) | Solve (qdq rotateq masterq restartq : bool) (n : option nat).
Definition do (o : op) (s : St) : St :=
  match o with Set_ par => set_par par s | Solve a b c d n => fst (solve a b c d n s) end.
Definition run (h : list op) (s : St) : St := fold_left (fun s o => do o s) h s.
End Run.
