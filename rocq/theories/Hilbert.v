(** The Hilbert transform on the energy grid.
    qmeq/specfunc/specfunc.py kernel_fredriksen 133-155, hilbert_fredriksen 157-177;
    qmeq/approach/base/neumann2.py get_htransf_phi1k 16-57, get_htransf_fk 60-100.
    numpy.fft.fft and ifft are the discrete Fourier transforms they are documented to be. *)
From Coq Require Import List Arith Lia ZArith Reals.
From Verif Require Import Base CRing.
Import ListNotations.
Local Notation Cr := (Cx RRing).
Local Open Scope R_scope.

Definition cis (t : R) : Cr := @mkC RRing (cos t) (sin t).
Definition cR (x : R) : Cr := @ofR RRing x.
(** numpy.fft.fft: X[k] = sum_j x[j] exp(-2 pi i j k / m) *)
Definition fft (x : list Cr) : list Cr :=
  map (fun k => rsum (fun j => rmul (nth j x r0) (cis (- (2 * PI * INR j * INR k / INR (length x))))) (seq 0 (length x))) (seq 0 (length x)).
(** numpy.fft.ifft: x[j] = 1/m sum_k X[k] exp(2 pi i j k / m) *)
Definition ifft (x : list Cr) : list Cr :=
  map (fun j => rmul (cR (/ INR (length x)))
     (rsum (fun k => rmul (nth k x r0) (cis (2 * PI * INR j * INR k / INR (length x)))) (seq 0 (length x)))) (seq 0 (length x)).

(** kernel_fredriksen 146-155: aux[0] = 0, aux[i] = i log(i) for 1 <= i <= n *)
Definition aux (n : nat) : list R :=
  fold_left (fun a i => set_nth i (INR i * ln (INR i)) a) (seq 1 n) (repeat 0 (n + 1)).
Definition ker (n : nat) : list R :=
  fold_left (fun k i => let k' := set_nth i (nth (i + 1) (aux n) 0 - 2 * nth i (aux n) 0 + nth (i - 1) (aux n) 0) k in
                        set_nth (2 * n - i) (- nth i k' 0) k')
    (seq 1 (n - 1)) (repeat 0 (2 * n)).
Definition kernel_fredriksen (n : nat) : list Cr := map (fun z => rmul z (cR (/ PI))) (fft (map cR (ker n))).

(** hilbert_fredriksen 172-177.  [None]: np.zeros of a negative length, or operands of different length. *)
Definition zmul (a b : list Cr) : list Cr := map (fun p => rmul (fst p) (snd p)) (combine a b).
Definition hilbert_with (f k : list Cr) : option (list Cr) :=
  if length k <? length f then None
  else Some (firstn (length f) (ifft (zmul (fft (f ++ repeat r0 (length k - length f))) k))).
Definition hilbert_fredriksen (f : list Cr) (k : option (list Cr)) : option (list Cr) :=
  hilbert_with f (match k with None => kernel_fredriksen (length f) | Some k => k end).

(** The cached kernel funcp.ht_ker: neumann2.py 44-45 and 86-87 *)
Definition ht_kernel (old : option (list Cr)) (n : nat) : list Cr :=
  match old with
  | None => kernel_fredriksen n
  | Some k => if Nat.eqb (2 * n) (length k) then k else kernel_fredriksen n
  end.
Definition pad {A} (z : A) (kl kr : nat) (f : list A) : list A := repeat z kl ++ f ++ repeat z kr.
(** hfk.real - 1j*fk, 97-99 *)
Definition shifted (h : Cr) (x : R) : Cr := @mkC RRing (re h) (- x)%R.
(** get_htransf_fk for one lead, 88-100: the padded values and hfk = H - i f.  [old] is funcp.ht_ker. *)
Definition htransf_fk (old : option (list Cr)) (kl kr : nat) (f : list R) : option (list R * list Cr) :=
  let k := ht_kernel old (length f + kl + kr) in
  let fp := pad 0 kl kr f in
  match hilbert_with (map cR fp) k with
  | None => None
  | Some h => Some (fp, map (fun p => shifted (fst p) (snd p)) (combine h fp))
  end.
(** get_htransf_phi1k for one (l, cb, bbp), 46-57 *)
Definition htransf_phi1k (old : option (list Cr)) (kl kr : nat) (f : list Cr) : option (list Cr * list Cr) :=
  let k := ht_kernel old (length f + kl + kr) in
  let fp := pad r0 kl kr f in
  match hilbert_with fp k with
  | None => None
  | Some h => Some (fp, h)
  end.
