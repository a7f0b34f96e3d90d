(** The iterative solution of the 2vN integral equation.
    qmeq/approach/base/neumann2.py Approach2vN.prepare_kern 108-113, prepare_energy_grid 115-126, prepare_distribution 203-230,
    TermsCalculator2vN.iterate 388-422, the ends of phi1k_local 526-530 and phi1k_iterate 635-636, determine_phi1_phi0 241-270;
    qmeq/approach/aprclass.py ApproachBase2vN.restart 493-509, prepare_arrays 516-530, iteration 558-571, solve 573-610. *)
From Coq Require Import List Arith Lia ZArith Bool Reals.
From Verif Require Import Base DMIndex CRing Layout Kernel Rates VN2K Hilbert VN2Grid VN2Iter.
Import ListNotations.
Local Notation Cr := (Cx RRing).
Local Open Scope R_scope.

Section Model.
Variables (L : Lay) (nl : nat) (E : nat -> R) (T : nat -> nat -> nat -> Cr).
(** mulst and tlst of the leads *)
Variables (mu temp : nat -> R).

(** ** Preparation *)
(** What is prepared at the zeroth iteration: len(Ek_grid), Ek_grid_ext, kpnt_left, kpnt_right; fkp and hfkp, hfkm of every lead; ht_ker *)
Record Prep := mkPrep { p_n : nat; p_grid : list R; p_kl : nat; p_kr : nat;
  p_fkp : nat -> list R; p_hfkp : nat -> list Cr; p_hfkm : nat -> list Cr; p_ker : list Cr }.
(** 226-227 *)
Definition fk (Ek : list R) (l : nat) : list R := map (fun x => 1 / (exp ((x - mu l) / temp l) + 1)) Ek.
(** [g]: the grid from an earlier preparation, [old]: funcp.ht_ker.  [None]: kpnt is missing or an array operation fails. *)
Definition prepare (kpnt : option nat) (dlst : list (R * R)) (ext_fct : R) (g : Grid) (old : option (list Cr)) : option (Grid * Prep) :=
  match make_Ek_grid kpnt dlst g with
  | None => None
  | Some (g', _) =>
    let Ek := g_Ek g' in
    let '(ext, kl, kr) := grid_ext Ek (g_dmin g') (g_dmax g') (emin L E (g_dmin g') (g_dmax g')) (emax L E (g_dmin g') (g_dmax g')) ext_fct in
    let ker := ht_kernel old (length Ek + kl + kr) in
    let get o := match o with Some (x, y) => (x, y) | None => ([], []) end in
    Some (g', mkPrep (length Ek) ext kl kr
      (fun l => fst (get (htransf_fk old kl kr (fk Ek l))))
      (fun l => snd (get (htransf_fk old kl kr (fk Ek l))))
      (fun l => snd (get (htransf_fk (Some ker) kl kr (map (fun x => 1 - x) (fk Ek l))))) ker)
  end.

(** ** Iteration *)
(** phi1k[k, l, cb, j] *)
Definition tab : Type := nat -> nat -> nat * Z -> Cr.
(** np.linalg.inv; [None]: the matrix is singular and LinAlgError is raised *)
Variable linv : (nat * nat -> Cr) -> option (nat * nat -> Cr).
(** np.dot of an ndm1 x ndm1 and an ndm1 x ndm0 array *)
Definition dot (A : nat * nat -> Cr) (B : nat * Z -> Cr) : nat * Z -> Cr :=
  fun i => rsum (fun x => rmul (A (fst i, x)) (B (x, snd i))) (seq 0 (ly_ndm1 L)).

Section Step.
Variable p : Prep.
Definition Ek (k : nat) : R := nth (p_kl p + k) (p_grid p) 0.
Definition fpk (l k : nat) : R := nth (p_kl p + k) (p_fkp p l) 0.
Definition fmk (l k : nat) : R := (1 - fpk l k)%R.
(** L1(k), 424-525 *)
Definition loc1 (k : nat) : nat * nat -> Cr :=
  kern1 RRing L nl E T (fun x l s => func_2vN (p_grid p) (p_hfkp p l) x s) (fun x l s => func_2vN (p_grid p) (p_hfkm p l) x s) (Ek k).
Definition loc0 (k l : nat) : nat * Z -> Cr := kern0 RRing L T l (fpk l k) (fmk l k).
(** phi1k_delta_old and hphi1k_delta, 412, one column *)
Definition hcol (x : tab) (l : nat) (i : nat * Z) : list Cr * list Cr :=
  match htransf_phi1k (Some (p_ker p)) (p_kl p) (p_kr p) (map (fun k => x k l i) (seq 0 (p_n p))) with Some r => r | None => ([], []) end.
Definition gu (x : tab) (e : R) (l cb : nat) (cj : bool) (j : Z) : Cr := at_k1 (p_grid p) (fst (hcol x l (cb, j))) e cj.
Definition gh (x : tab) (e : R) (l cb : nat) (cj : bool) (j : Z) : Cr := at_k1 (p_grid p) (snd (hcol x l (cb, j))) e cj.
Definition nonloc (x : tab) (k l : nat) : nat * Z -> Cr :=
  iter_kern RRing L nl E T (gh x) (gu x) (Ek k) l (fpk l k) (fmk l k).

(** phi1k, phi1k_delta, kern1k_inv, is_zeroth_iteration, niter *)
Record VS := mkVS { vs_phi : tab; vs_delta : tab; vs_inv : nat -> nat -> nat * nat -> Cr; vs_zeroth : bool; vs_niter : Z }.
(** restart and prepare_arrays *)
Definition fresh : VS := mkVS (fun _ _ _ => r0) (fun _ _ _ => r0) (fun _ _ _ => r0) true (-1).
(** iterate 405-422.  Every pass of the loops writes the entries [k, l] only; the non-local terms read the copy phi1k_delta_old. *)
Definition iterate (s : VS) : option VS :=
  if vs_zeroth s then
    if forallb (fun k => match linv (loc1 k) with Some _ => true | None => false end) (seq 0 (p_n p)) then
      let inv := fun k (l : nat) => match linv (loc1 k) with Some m => m | None => fun _ => r0 end in
      Some (mkVS (vs_phi s) (fun k l => dot (inv k l) (loc0 k l)) inv false (vs_niter s))
    else None
  else Some (mkVS (vs_phi s) (fun k l => dot (vs_inv s k l) (nonloc (vs_delta s) k l)) (vs_inv s) false (vs_niter s)).
(** iteration 558-566: iterate, phi1k += phi1k_delta, niter += 1 *)
Definition iteration (s : VS) : option VS :=
  match iterate s with
  | None => None
  | Some s' => Some (mkVS (fun k l i => radd (vs_phi s' k l i) (vs_delta s' k l i)) (vs_delta s') (vs_inv s') (vs_zeroth s') (vs_niter s' + 1))
  end.
(** the loop of solve, 607-608, from any state *)
Fixpoint iterations (m : nat) (s : VS) : option VS :=
  match m with O => Some s | S m' => match iteration s with Some s' => iterations m' s' | None => None end end.
(** determine_phi1_phi0: phi1_phi0[l, cb, j], e_phi1_phi0[l, cb, j] *)
Definition phi1_phi0 (Ekg : list R) (s : VS) (l cb : nat) (j : Z) : Cr := phi1_int Ekg (fun k => vs_phi s k l (cb, j)).
Definition e_phi1_phi0 (Ekg : list R) (s : VS) (l cb : nat) (j : Z) : Cr := e_phi1_int Ekg (fun k => vs_phi s k l (cb, j)).
End Step.
End Model.
