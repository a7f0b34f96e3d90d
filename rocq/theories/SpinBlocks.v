(** The spin operators between the states of two blocks: sums over intermediate states, for any linear operator, and the
    embedding of the integer matrices in a larger ring. *)
From Coq Require Import String ZArith List Arith Lia Bool Permutation.
From Verif Require Import Base CRing Fock SpinFock.
Import ListNotations.
Open Scope nat_scope.
Local Notation length := List.length.

Section Linear.
Variable K : CRing.
Add Ring Klin : (rth K).
Local Open Scope rng_scope.
Definition linear (A : op K) : Prop :=
  (forall u v w, (forall x, length x = length w -> u x = v x) -> A u w = A v w) /\
  (forall (c : list bool -> K) (F : list bool -> vec K) l w, A (fun x => rsum (fun k => F k x * c k) l) w = rsum (fun k => A (F k) w * c k) l).
Lemma linear_letter : forall x, linear (letter K x).
Proof.
  intros x. split; [intros; now apply letter_ext|]. intros c F l w. rewrite letter_rsum. apply rsum_ext. intros k _.
  rewrite (letter_ext K x _ (fun t => c k * F k t)) by (intros; ring). rewrite letter_lin. ring.
Qed.
Lemma linear_comp : forall A B, linear A -> (forall u v w, (forall x, length x = length w -> u x = v x) -> B u w = B v w) ->
  (forall (c : list bool -> K) (F : list bool -> vec K) l w, B (fun x => rsum (fun k => F k x * c k) l) w = rsum (fun k => B (F k) w * c k) l) -> linear (ocomp K A B).
Proof.
  intros A B (A1 & A2) B1 B2. split.
  - intros u v w H. unfold ocomp. apply A1. intros x Lx. apply B1. intros y Ly. apply H. congruence.
  - intros c F l w. unfold ocomp. rewrite (A1 _ (fun x => rsum (fun k => B (F k) x * c k) l)) by (intros; apply B2). apply A2.
Qed.
Lemma linear_compose : forall A B, linear A -> linear B -> linear (ocomp K A B).
Proof. intros A B HA (B1 & B2). now apply linear_comp. Qed.
Lemma linear_zero : linear (ozero K).
Proof. split; [reflexivity|]. intros c F l w. unfold ozero. symmetry. apply rsum_0. intros; ring. Qed.
Lemma linear_plus : forall A B, linear A -> linear B -> linear (oplus K A B).
Proof.
  intros A B (A1 & A2) (B1 & B2). split.
  - intros u v w H. unfold oplus. now rewrite (A1 u v w), (B1 u v w).
  - intros c F l w. unfold oplus. rewrite A2, B2, <- rsum_plus. apply rsum_ext. intros k _. ring.
Qed.
Lemma linear_scale : forall c A, linear A -> linear (oscale K c A).
Proof.
  intros c A (A1 & A2). split.
  - intros u v w H. unfold oscale. now rewrite (A1 u v w).
  - intros d F l w. unfold oscale. rewrite A2, <- rsum_mul_l. apply rsum_ext. intros k _. ring.
Qed.
Lemma linear_sum : forall A (F : A -> op K) l, (forall x, In x l -> linear (F x)) -> linear (osum K F l).
Proof.
  intros A F. induction l as [|x l IH]; intros H; cbn [osum]; [apply linear_zero|]. apply linear_plus; [apply H; now left|]. apply IH. intros y Hy. apply H. now right.
Qed.

(** all states *)
Fixpoint strings (n : nat) : list (list bool) := match n with O => [[]] | S n => map (cons false) (strings n) ++ map (cons true) (strings n) end.
Lemma in_strings : forall n s, In s (strings n) <-> length s = n.
Proof.
  induction n as [|n IH]; intros s; cbn [strings].
  - split; [intros [<-|[]]; reflexivity|]. destruct s; [now left|discriminate].
  - rewrite in_app_iff, !in_map_iff. split.
    + intros [(x & <- & Hx)|(x & <- & Hx)]; apply IH in Hx; cbn; lia.
    + destruct s as [|[|] s]; [discriminate| |]; intros H; injection H as H; apply IH in H; [right|left]; exists s; auto.
Qed.
Lemma strings_nodup : forall n, NoDup (strings n).
Proof.
  induction n as [|n IH]; cbn [strings]; [constructor; [intros []|constructor]|].
  assert (M : forall b, NoDup (map (cons b) (strings n))) by (intros b; apply FinFun.Injective_map_NoDup; auto; intros x y E; now injection E).
  apply NoDup_app_intro; auto. intros x H1 H2. apply in_map_iff in H1, H2. destruct H1 as (? & <- & _), H2 as (? & E & _). discriminate.
Qed.
Lemma rsum_within : forall A (dec : forall x y : A, {x = y} + {x <> y}) (f : A -> K) big small, NoDup big -> NoDup small ->
  (forall x, In x small -> In x big) -> (forall x, In x big -> ~ In x small -> f x = 0) -> rsum f big = rsum f small.
Proof.
  intros A dec f big small NB NS SUB Z.
  rewrite <- (rsum_perm K _ f (filter (fun x => if in_dec dec x small then true else false) big) small).
  - rewrite rsum_filter. apply rsum_ext. intros x Hx. destruct (in_dec dec x small); auto.
  - apply NoDup_Permutation; auto; [now apply NoDup_filter|]. intros x. rewrite filter_In. destruct (in_dec dec x small) as [I1|N1]; split; auto; try tauto. intros (_ & E). discriminate.
Qed.
Section Row.
Variables (h : nat) (from to : nat -> nat) (n : nat).
Hypothesis BND : forall j, (j < h)%nat -> (from j < n /\ to j < n)%nat.
Hypothesis DIS : forall j k, (j < h)%nat -> (k < h)%nat -> from j <> to k.
Lemma ladder_row : forall (sts : list (list bool)) s f, length s = n -> NoDup sts -> (forall u, In u sts -> length u = n) ->
  (forall u j, length u = n -> (j < h)%nat -> flippable from to j u = true -> s = flip from to j u -> In u sts) ->
  ladder K h from to f s = rsum (fun u => mel K (ladder K h from to) s u * f u) sts.
Proof.
  intros sts s f Ls ND LEN CL.
  rewrite (ladder_ext K h from to f (fun x => rsum (fun u => basis K u x * f u) (strings n))).
  - rewrite ladder_rsum. change (rsum (fun u => mel K (ladder K h from to) s u * f u) (strings n) = rsum (fun u => mel K (ladder K h from to) s u * f u) sts).
    apply (rsum_within _ (list_eq_dec bool_dec)); [apply strings_nodup|auto| |].
    + intros x Hx. apply in_strings. auto.
    + intros x Hx NI. apply in_strings in Hx. rewrite (mel_ladder_zero K h from to n) by (auto; intros j Hj F E; apply NI; now apply (CL x j)). ring.
  - intros x Lx. rewrite (rsum_single K _ _ (strings n) x (strings_nodup n)).
    + rewrite basis_refl. ring.
    + apply in_strings. congruence.
    + intros y Hy N. rewrite basis_neq by auto. ring.
Qed.
End Row.
End Linear.

(** a ring homomorphism maps the matrix of a ladder operator to the matrix of the same operator *)
Section Hom.
Variables K K' : CRing.
Variable phi : K -> K'.
Add Ring Khom : (rth K').
Local Open Scope rng_scope.
Hypothesis phi_0 : phi 0 = 0.
Hypothesis phi_1 : phi 1 = 1.
Hypothesis phi_add : forall x y, phi (x + y) = phi x + phi y.
Hypothesis phi_mul : forall x y, phi (x * y) = phi x * phi y.
Hypothesis phi_opp : forall x, phi (- x) = - phi x.
Lemma phi_rsum : forall A (f : A -> K) l, phi (rsum f l) = rsum (fun x => phi (f x)) l.
Proof. intros A f. induction l as [|x l IH]; cbn [rsum]; auto. now rewrite phi_add, IH. Qed.
Lemma ladder_hom : forall h from to n s t, (forall j, (j < h)%nat -> (from j < n /\ to j < n)%nat) -> (forall j k, (j < h)%nat -> (k < h)%nat -> from j <> to k) ->
  length s = n -> length t = n -> phi (mel K (ladder K h from to) t s) = mel K' (ladder K' h from to) t s.
Proof.
  intros h from to n s t BND DIS Ls Lt. rewrite (mel_ladder K h from to n BND DIS), (mel_ladder K' h from to n BND DIS) by auto.
  rewrite phi_rsum. apply rsum_ext. intros j _. destruct (flippable from to j s); auto.
  assert (J : forall i x, phi (jw K i x) = jw K' i x).
  { intros i x. unfold jw, sgn. destruct (Nat.even _); auto. now rewrite phi_opp, phi_1. }
  rewrite !phi_mul. unfold flip_sign, two. rewrite phi_add, phi_mul, phi_1, !J. f_equal.
  unfold basis. destruct (list_eq_dec bool_dec t (flip from to j s)); auto.
Qed.
End Hom.
