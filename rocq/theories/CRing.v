(** Exact numbers standing for Python's floats: an arbitrary commutative ring, complex numbers over
    it, and finite sums.  Rounding is not modelled. *)
From Coq Require Import List Arith Lia ZArith Bool Permutation Ring QArith Qcanon Reals.
Import ListNotations.
Open Scope nat_scope.

Record CRing := mkCRing {
  car :> Type;
  r0 : car; r1 : car;
  radd : car -> car -> car; rmul : car -> car -> car; rsub : car -> car -> car;
  ropp : car -> car;
  rth : ring_theory r0 r1 radd rmul rsub ropp eq
}.
Arguments r0 {_}. Arguments r1 {_}. Arguments radd {_}. Arguments rmul {_}.
Arguments rsub {_}. Arguments ropp {_}.
Declare Scope rng_scope.
Delimit Scope rng_scope with rng.
Bind Scope rng_scope with car.
Notation "0" := r0 : rng_scope.
Notation "1" := r1 : rng_scope.
Infix "+" := radd : rng_scope.
Infix "*" := rmul : rng_scope.
Infix "-" := rsub : rng_scope.
Notation "- x" := (ropp x) : rng_scope.

(** instances *)
Definition ZRing : CRing := mkCRing Z 0%Z 1%Z Z.add Z.mul Z.sub Z.opp InitialRing.Zth.
Definition QRing : CRing := mkCRing Qc (0)%Qc (1)%Qc Qcplus Qcmult Qcminus Qcopp Qcrt.
Definition RRing : CRing := mkCRing R 0%R 1%R Rplus Rmult Rminus Ropp RTheory.

(** ** Complex numbers over a ring *)
Section Complex.
Variable K : CRing.
Add Ring Kring : (rth K).
Local Open Scope rng_scope.

Record cplx := mkC { re : K; im : K }.

Lemma cplx_eq : forall a b : cplx, re a = re b -> im a = im b -> a = b.
Proof. intros [a1 a2] [b1 b2]; simpl; intros; subst; auto. Qed.

Definition cadd (a b : cplx) := mkC (re a + re b) (im a + im b).
Definition cmul (a b : cplx) := mkC (re a * re b - im a * im b) (re a * im b + im a * re b).
Definition csub (a b : cplx) := mkC (re a - re b) (im a - im b).
Definition copp (a : cplx) := mkC (- re a) (- im a).

Lemma cplx_rth : ring_theory (mkC 0 0) (mkC 1 0) cadd cmul csub copp eq.
Proof. constructor; intros; apply cplx_eq; simpl; ring. Qed.

Definition Cx : CRing := mkCRing cplx (mkC 0 0) (mkC 1 0) cadd cmul csub copp cplx_rth.

Definition conj (a : Cx) : Cx := mkC (re a) (- im a).
Definition ofR (x : K) : Cx := mkC x 0.
Definition Ci : Cx := mkC 0 1.

Lemma conj_conj : forall a, conj (conj a) = a.
Proof. intros [x y]. apply cplx_eq; simpl; ring. Qed.
Lemma conj_add : forall a b : Cx, conj (a + b) = conj a + conj b.
Proof. intros. apply cplx_eq; simpl; ring. Qed.
Lemma conj_mul : forall a b : Cx, conj (a * b) = conj a * conj b.
Proof. intros. apply cplx_eq; simpl; ring. Qed.
Lemma conj_opp : forall a : Cx, conj (- a) = - conj a.
Proof. intros. apply cplx_eq; simpl; ring. Qed.
Lemma conj_0 : conj 0 = 0.
Proof. apply cplx_eq; simpl; ring. Qed.
Lemma conj_1 : conj 1 = 1.
Proof. apply cplx_eq; simpl; ring. Qed.
End Complex.
Arguments Cx _ : simpl never.
Arguments mkC {_}. Arguments re {_}. Arguments im {_}. Arguments conj {_}. Arguments ofR {_}.

(** ** Finite sums *)
Section Sums.
Variable K : CRing.
Add Ring Kring2 : (rth K).
Local Open Scope rng_scope.

Fixpoint rsum {A} (f : A -> K) (l : list A) : K :=
  match l with [] => 0 | x :: l' => f x + rsum f l' end.

Lemma rsum_app : forall A (f : A -> K) l l', rsum f (l ++ l') = rsum f l + rsum f l'.
Proof. induction l; simpl; intros. - ring. - rewrite IHl. ring. Qed.

Lemma rsum_ext : forall A (f g : A -> K) l, (forall x, In x l -> f x = g x) -> rsum f l = rsum g l.
Proof. induction l; simpl; intros; auto. rewrite H by auto. rewrite IHl; auto. Qed.

Lemma rsum_0 : forall A (f : A -> K) l, (forall x, In x l -> f x = 0) -> rsum f l = 0.
Proof. induction l; simpl; intros; auto. rewrite H by auto. rewrite IHl by auto. ring. Qed.

Lemma rsum_plus : forall A (f g : A -> K) l, rsum (fun x => f x + g x) l = rsum f l + rsum g l.
Proof. induction l; simpl. - ring. - rewrite IHl. ring. Qed.

Lemma rsum_minus : forall A (f g : A -> K) l, rsum (fun x => f x - g x) l = rsum f l - rsum g l.
Proof. induction l; simpl. - ring. - rewrite IHl. ring. Qed.

Lemma rsum_opp : forall A (f : A -> K) l, rsum (fun x => - f x) l = - rsum f l.
Proof. induction l; simpl. - ring. - rewrite IHl. ring. Qed.

Lemma rsum_mul_l : forall A (f : A -> K) c l, rsum (fun x => c * f x) l = c * rsum f l.
Proof. induction l; simpl. - ring. - rewrite IHl. ring. Qed.

Lemma rsum_mul_r : forall A (f : A -> K) c l, rsum (fun x => f x * c) l = rsum f l * c.
Proof. induction l; simpl. - ring. - rewrite IHl. ring. Qed.

Lemma rsum_map : forall A B (f : B -> K) (g : A -> B) l, rsum f (map g l) = rsum (fun x => f (g x)) l.
Proof. induction l; cbn [rsum]; auto. cbn. now rewrite IHl. Qed.

Lemma rsum_flat_map : forall A B (f : B -> K) (g : A -> list B) l,
  rsum f (flat_map g l) = rsum (fun x => rsum f (g x)) l.
Proof. induction l; simpl; auto. now rewrite rsum_app, IHl. Qed.

Lemma rsum_swap : forall A B (f : A -> B -> K) l l',
  rsum (fun x => rsum (fun y => f x y) l') l = rsum (fun y => rsum (fun x => f x y) l) l'.
Proof.
  induction l; simpl; intros.
  - symmetry. apply rsum_0. auto.
  - now rewrite IHl, rsum_plus.
Qed.

Lemma rsum_perm : forall A (f : A -> K) l l', Permutation l l' -> rsum f l = rsum f l'.
Proof. induction 1; simpl; try congruence. ring. Qed.

Lemma rsum_filter : forall A (f : A -> K) (p : A -> bool) l,
  rsum f (filter p l) = rsum (fun x => if p x then f x else 0) l.
Proof. induction l; simpl; auto. destruct (p a); simpl; rewrite IHl; auto. ring. Qed.

(** a sum with exactly one non-zero term *)
Lemma rsum_single : forall A (f : A -> K) l x, NoDup l -> In x l ->
  (forall y, In y l -> y <> x -> f y = 0) -> rsum f l = f x.
Proof.
  induction l as [|a l IH]; simpl; intros x ND Hin H; [destruct Hin|].
  inversion ND; subst. destruct Hin as [->|Hin].
  - rewrite rsum_0; [ring|]. intros y Hy. apply H; auto. intros ->. auto.
  - rewrite (IH x) by auto. rewrite H; auto; [ring|]. intros ->. auto.
Qed.

Lemma rsum_if_nat : forall (g : nat -> K) l x, NoDup l -> In x l ->
  rsum (fun y => if Nat.eqb y x then g y else 0) l = g x.
Proof.
  intros g l x ND H. rewrite (rsum_single _ _ l x ND H).
  - now rewrite Nat.eqb_refl.
  - intros y _ Hy. apply Nat.eqb_neq in Hy. now rewrite Hy.
Qed.
End Sums.
Arguments rsum {_} {_}.

Lemma re_add : forall (K : CRing) (a b : Cx K), re (radd a b) = radd (re a) (re b).
Proof. reflexivity. Qed.
Lemma im_add : forall (K : CRing) (a b : Cx K), im (radd a b) = radd (im a) (im b).
Proof. reflexivity. Qed.
Lemma re_mul : forall (K : CRing) (a b : Cx K), re (rmul a b) = rsub (rmul (re a) (re b)) (rmul (im a) (im b)).
Proof. reflexivity. Qed.
Lemma im_mul : forall (K : CRing) (a b : Cx K), im (rmul a b) = radd (rmul (re a) (im b)) (rmul (im a) (re b)).
Proof. reflexivity. Qed.
Lemma rsum_re : forall (K : CRing) A (f : A -> Cx K) l, re (rsum f l) = rsum (fun x => re (f x)) l.
Proof. induction l; cbn [rsum]; auto. now rewrite re_add, IHl. Qed.
Lemma rsum_im : forall (K : CRing) A (f : A -> Cx K) l, im (rsum f l) = rsum (fun x => im (f x)) l.
Proof. induction l; cbn [rsum]; auto. now rewrite im_add, IHl. Qed.
Lemma rsum_conj : forall (K : CRing) A (f : A -> Cx K) l, conj (rsum f l) = rsum (fun x => conj (f x)) l.
Proof. induction l; cbn [rsum]. - apply conj_0. - now rewrite conj_add, IHl. Qed.

(** ** Arrays filled by [m[i,j] += v] *)
(** An index is any type with a decidable equality; the updates are executed in order on the zero array. *)
Section Updates.
Variables (I : Type) (ieq : forall a b : I, {a = b} + {a <> b}) (K : CRing).
Add Ring Kring3 : (rth K).
Local Open Scope rng_scope.

Definition arr := I -> K.
Definition plus_at (m : arr) (u : I * K) : arr :=
  fun i => if ieq i (fst u) then m i + snd u else m i.
Definition run_updates (us : list (I * K)) (m0 : arr) : arr := fold_left plus_at us m0.
Definition zeros : arr := fun _ => 0.

Lemma run_updates_sum : forall us m0 i,
  run_updates us m0 i = m0 i + rsum (fun u => if ieq i (fst u) then snd u else 0) us.
Proof.
  induction us as [|u us IH]; simpl; intros.
  - ring.
  - unfold run_updates in *. rewrite IH. unfold plus_at. destruct (ieq i (fst u)); ring.
Qed.

Lemma run_updates_app : forall us us' m0, run_updates (us ++ us') m0 = run_updates us' (run_updates us m0).
Proof. intros. unfold run_updates. apply fold_left_app. Qed.
End Updates.
Arguments run_updates {_} ieq {_}. Arguments zeros {_} {_}.

Definition eq2 : forall a b : nat * nat, {a = b} + {a <> b}.
Proof. decide equality; apply Nat.eq_dec. Defined.
Definition eq3 : forall a b : nat * nat * nat, {a = b} + {a <> b}.
Proof. decide equality; [apply Nat.eq_dec|apply eq2]. Defined.

(** fermion signs *)
Definition sgn (K : CRing) (k : nat) : K := if Nat.even k then r1 else ropp r1.
Section Sgn.
Variable K : CRing.
Add Ring Kring4 : (rth K).
Local Open Scope rng_scope.
Lemma sgn_add : forall a b, sgn K (a + b) = sgn K a * sgn K b.
Proof. intros. unfold sgn. rewrite Nat.even_add. destruct (Nat.even a), (Nat.even b); simpl; ring. Qed.
Lemma sgn_S : forall a, sgn K (S a) = - sgn K a.
Proof. intros. replace (S a) with (1 + a)%nat by lia. rewrite sgn_add. unfold sgn at 1. simpl. ring. Qed.
Lemma sgn_sq : forall a, sgn K a * sgn K a = 1.
Proof. intros. unfold sgn. destruct (Nat.even a); ring. Qed.
Lemma sgn_0 : sgn K 0 = 1.
Proof. reflexivity. Qed.
End Sgn.
Lemma conj_sgn : forall K a, conj (sgn (Cx K) a) = sgn (Cx K) a.
Proof. intros. unfold sgn. destruct (Nat.even a). - apply conj_1. - now rewrite conj_opp, conj_1. Qed.

(** option-valued concatenation: the first error aborts *)
Fixpoint oconcat {A B} (f : A -> option (list B)) (l : list A) : option (list B) :=
  match l with
  | [] => Some []
  | x :: l' => match f x with
               | None => None
               | Some r => match oconcat f l' with None => None | Some r' => Some (r ++ r') end
               end
  end.

Lemma oconcat_some : forall A B (f : A -> option (list B)) (g : A -> list B) l,
  (forall x, In x l -> f x = Some (g x)) -> oconcat f l = Some (flat_map g l).
Proof.
  induction l; simpl; intros; auto. rewrite H by auto. rewrite IHl by auto. reflexivity.
Qed.

Lemma oconcat_inv : forall A B (f : A -> option (list B)) l r, oconcat f l = Some r ->
  forall x, In x l -> exists y, f x = Some y.
Proof.
  induction l; simpl; intros r H x Hx; [destruct Hx|].
  destruct (f a) eqn:E; [|discriminate]. destruct (oconcat f l) eqn:E2; [|discriminate].
  destruct Hx as [->|Hx]; eauto.
Qed.

Lemma oconcat_flat : forall A B (f : A -> option (list B)) l r, oconcat f l = Some r ->
  r = flat_map (fun x => match f x with Some y => y | None => [] end) l.
Proof.
  induction l; simpl; intros r H; [congruence|].
  destruct (f a) eqn:E; [|discriminate]. destruct (oconcat f l) eqn:E2; [|discriminate].
  injection H as <-. now rewrite (IHl l1).
Qed.
