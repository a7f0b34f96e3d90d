(** The algebra of the 2vN integral equation: the local kernel and the iteration as sums over states. *)
From Coq Require Import String List Arith Lia ZArith Bool Ring.
From Verif Require Import Base Bits Indexing IndexingProofs DMIndex DMReach PropDMIndex CRing Layout Kernel KernelProofs Rates VN2K VN2Iter PropVN2.
From Verif Require PropLeads.
Import ListNotations.
Open Scope nat_scope.
Local Notation length := List.length.

(** first-order elements have their own number below ndm1 *)
Record layout1 (L : Lay) : Prop := {
  l1_ind : forall c b q, (0 <= q)%Z -> In c (states L (q + 1)) -> In b (states L q) -> ind1 L c b q < ly_ndm1 L;
  l1_inj : forall c b q c' b' q', (0 <= q)%Z -> (0 <= q')%Z ->
     In c (states L (q + 1)) -> In b (states L q) -> In c' (states L (q' + 1)) -> In b' (states L q') ->
     ind1 L c b q = ind1 L c' b' q' -> c = c' /\ b = b' /\ q = q' }.
Lemma layout1_reach : forall n name si dm, 1 <= n -> reach KDMc n name si dm -> layout1 (lay_of dm).
Proof.
  intros n name si dm Hn R. destruct (C09_first_order_slots KDMc n name si dm Hn ltac:(discriminate) R) as (A & B & _).
  assert (Q : forall c b k, ind1 (lay_of dm) c b (Z.of_nat k) = get_ind_dm1 dm c b k).
  { intros. unfold ind1, get_ind_dm1. simpl. now rewrite Nat2Z.id. }
  assert (P : forall q, (0 <= q)%Z -> exists k, q = Z.of_nat k /\ states (lay_of dm) q = considered dm k /\ states (lay_of dm) (q + 1) = considered dm (S k)).
  { intros q Hq. exists (Z.to_nat q). rewrite <- !states_nat. replace (Z.of_nat (S (Z.to_nat q))) with (q + 1)%Z by lia. now rewrite Z2Nat.id. }
  split.
  - intros c b q Hq Hc Hb. destruct (P q Hq) as (k & -> & E1 & E2). rewrite E1 in Hb. rewrite E2 in Hc. rewrite Q. now apply A.
  - intros c b q c' b' q' Hq Hq' Hc Hb Hc' Hb' E. destruct (P q Hq) as (k & -> & E1 & E2). destruct (P q' Hq') as (k' & -> & E1' & E2').
    rewrite E1 in Hb. rewrite E2 in Hc. rewrite E1' in Hb'. rewrite E2' in Hc'. rewrite !Q in E.
    destruct (B _ _ _ _ _ _ Hc Hb Hc' Hb' E) as (-> & -> & ->). auto.
Qed.

Section Eq.
Variable K : CRing.
Local Notation C := (Cx K).
Local Open Scope rng_scope.
Add Ring Cring : (rth C).
Add Ring Kring : (rth K).
Variables (L : Lay) (nl : nat) (E : nat -> K) (T : nat -> nat -> nat -> C).
Hypothesis (CL : clayout L) (L1 : layout1 L).

(** ** One row of an array filled by the loop over (c, b) *)
Lemma charges1_pos : forall q, In q (charges1 L) -> (0 <= q)%Z.
Proof. intros q H. unfold charges1 in H. apply in_map_iff in H. destruct H as (k & <- & _). lia. Qed.
Lemma charges1_nodup : NoDup (charges1 L).
Proof. unfold charges1. apply FinFun.Injective_map_NoDup; [intros x y; lia|apply seq_NoDup]. Qed.
Lemma prod_nodup : forall q, (0 <= q)%Z -> NoDup (list_prod (states L (q + 1)) (states L q)).
Proof. intros q H. apply PropLeads.list_prod_nodup; apply (cl_nodup L CL); lia. Qed.
Lemma each_row : forall (A : Type) (ops : Z -> nat -> nat -> list A) (row : A -> nat) (g : A -> C) q c b,
  (forall q' c' b' u, In u (ops q' c' b') -> row u = ind1 L c' b' q') ->
  In q (charges1 L) -> In c (states L (q + 1)) -> In b (states L q) ->
  rsum (fun u => if Nat.eq_dec (ind1 L c b q) (row u) then g u else 0) (each_cb L ops) = rsum g (ops q c b).
Proof.
  intros A ops row g q c b HR Hq Hc Hb. unfold each_cb. rewrite (rsum_flat_map C).
  assert (Z0 : forall q' p, In q' (charges1 L) -> In p (list_prod (states L (q' + 1)) (states L q')) -> ~ (q' = q /\ p = (c, b)) ->
     rsum (fun u => if Nat.eq_dec (ind1 L c b q) (row u) then g u else 0) (ops q' (fst p) (snd p)) = 0).
  { intros q' [c' b'] Hq' Hp NE. apply in_prod_iff in Hp. apply (rsum_0 C). intros u Hu. simpl in Hu. rewrite (HR _ _ _ _ Hu).
    destruct (Nat.eq_dec (ind1 L c b q) (ind1 L c' b' q')) as [Q|Q]; auto. exfalso.
    destruct (l1_inj L L1 c b q c' b' q' (charges1_pos _ Hq) (charges1_pos _ Hq') Hc Hb (proj1 Hp) (proj2 Hp) Q) as (-> & -> & ->). auto. }
  rewrite (rsum_single C _ _ _ q charges1_nodup Hq).
  - rewrite (rsum_flat_map C). rewrite (rsum_single C _ _ _ (c, b) (prod_nodup q (charges1_pos _ Hq))).
    + simpl. apply (rsum_ext C). intros u Hu. rewrite (HR _ _ _ _ Hu). destruct (Nat.eq_dec _ _); congruence.
    + apply in_prod_iff. auto.
    + intros p Hp NE. apply Z0; auto. intros (_ & ->). now apply NE.
  - intros q' Hq' NE. rewrite (rsum_flat_map C). apply (rsum_0 C). intros p Hp. apply Z0; auto. tauto.
Qed.

Lemma in_each : forall (A : Type) (ops : Z -> nat -> nat -> list A) u, In u (each_cb L ops) <->
  exists q c b, In q (charges1 L) /\ In c (states L (q + 1)) /\ In b (states L q) /\ In u (ops q c b).
Proof.
  intros A ops u. unfold each_cb. rewrite in_flat_map. split.
  - intros (q & Hq & H). apply in_flat_map in H. destruct H as ([c b] & Hp & H). apply in_prod_iff in Hp. exists q, c, b. tauto.
  - intros (q & c & b & Hq & Hc & Hb & H). exists q. split; auto. apply in_flat_map. exists (c, b). split; auto. apply in_prod_iff. auto.
Qed.
(** a row of a matrix filled by [+=], applied to a vector *)
Lemma row_apply : forall (J : Type) (jeq : forall x y : nat * J, {x = y} + {x <> y}) (js : list J) (us : list (nat * J * C)) (X : J -> C) i,
  NoDup js -> (forall u, In u us -> In (snd (fst u)) js) ->
  rsum (fun x => run_updates jeq us zeros (i, x) * X x) js = rsum (fun u => if Nat.eq_dec i (fst (fst u)) then snd u * X (snd (fst u)) else 0) us.
Proof.
  intros J jeq js us X i ND HC.
  transitivity (rsum (fun x => rsum (fun u => if jeq (i, x) (fst u) then snd u * X x else 0) us) js).
  { apply (rsum_ext C). intros x Hx. rewrite run_updates_sum. unfold zeros. rewrite <- (rsum_mul_r C) || idtac.
    transitivity (rsum (fun u => if jeq (i, x) (fst u) then snd u else 0) us * X x); [ring|].
    rewrite <- (rsum_mul_r C). apply (rsum_ext C). intros u _. destruct (jeq (i, x) (fst u)); ring. }
  rewrite (rsum_swap C). apply (rsum_ext C). intros [[r j] v] Hu. cbn [fst snd]. specialize (HC _ Hu). cbn [fst snd] in HC.
  rewrite (rsum_single C _ _ _ j ND HC).
  - destruct (jeq (i, j) (r, j)) as [Q|Q]; destruct (Nat.eq_dec i r) as [Q'|Q']; try congruence.
  - intros y _ NE. destruct (jeq (i, y) (r, j)); congruence.
Qed.

(** ** The integral over the lead states *)
(** [Int s x u]: the integral of u(E')/(x - E' + i0) for s = true, with -i0 for s = false; u is given at the points of the grid *)
Variable Int : bool -> K -> (nat -> C) -> C.
Hypothesis (Iext : forall s x u v, (forall k, u k = v k) -> Int s x u = Int s x v)
  (Iadd : forall s x u v, Int s x (fun k => u k + v k) = Int s x u + Int s x v)
  (Imul : forall s x a u, Int s x (fun k => a * u k) = a * Int s x u).
Lemma I0 : forall s x, Int s x (fun _ => 0) = 0.
Proof. intros. rewrite (Iext s x _ (fun k => 0 * (fun _ => 0) k)) by (intros; ring). rewrite (Imul s x 0 (fun _ => 0)). ring. Qed.
Lemma Isum : forall A (u : A -> nat -> C) l s x, Int s x (fun k => rsum (fun a => u a k) l) = rsum (fun a => Int s x (u a)) l.
Proof.
  intros A u l s x. induction l as [|a l IH]; [apply I0|]. transitivity (Int s x (u a) + Int s x (fun k => rsum (fun a => u a k) l)); [exact (Iadd s x (u a) (fun k => rsum (fun a => u a k) l))|]. now rewrite IH.
Qed.
Lemma Iopp : forall s x u, Int s x (fun k => - u k) = - Int s x u.
Proof. intros. rewrite (Iext s x _ (fun k => (- (1)) * u k)) by (intros; ring). rewrite Imul. ring. Qed.

(** Fermi functions of the leads at the points of the grid, [Ek] the energies there; [X], [Y] k l cb: first-order elements *)
Variables (f : nat -> nat -> K) (Ek : nat -> K) (X Y : nat -> nat -> nat -> C).
Definition fp_ (l k : nat) : C := ofR (f l k).
Definition fm_ (l k : nat) : C := ofR (1 - f l k).
Definition Fp (x : K) (l : nat) (s : bool) : C := Int s x (fp_ l).
Definition Fm (x : K) (l : nat) (s : bool) : C := Int s x (fm_ l).

(** ** Specification: elements with two lead states *)
(** sources of the element (x, y), both of charge q, with an electron added in (l, k) and one removed in (l', k') *)
Definition same (q : Z) (x y l k l' k' : nat) : C :=
  rsum (fun c => T l' x c * fm_ l' k' * X k l (ind1 L c y q)) (states L (q + 1)) +
  rsum (fun a => X k l (ind1 L x a (q - 1)) * T l' a y * fp_ l' k') (states L (q - 1)) -
  rsum (fun a => T l x a * fp_ l k * conj (Y k' l' (ind1 L y a (q - 1)))) (states L (q - 1)) -
  rsum (fun c => conj (Y k' l' (ind1 L c x q)) * T l c y * fm_ l k) (states L (q + 1)).
(** sources of the element (d, b) of charges q + 2 and q *)
Definition two (q : Z) (d b l k l' k' : nat) : C :=
  rsum (fun c => T l d c * fp_ l k * Y k' l' (ind1 L c b q)) (states L (q + 1)) +
  rsum (fun c => Y k' l' (ind1 L d c (q + 1)) * T l c b * fm_ l k) (states L (q + 1)) -
  rsum (fun c => T l' d c * fp_ l' k' * X k l (ind1 L c b q)) (states L (q + 1)) -
  rsum (fun c => X k l (ind1 L d c (q + 1)) * T l' c b * fm_ l' k') (states L (q + 1)).
(** what they contribute to the element (c, b) *)
Definition second (k l : nat) (q : Z) (c b : nat) : C :=
  rsum (fun l' =>
    rsum (fun b1 => T l' c b1 * Int true (Ek k - E b1 + E b) (fun k' => same q b1 b l k l' k')) (states L q) +
    rsum (fun c1 => Int true (Ek k - E c + E c1) (fun k' => same (q + 1) c c1 l k l' k') * T l' c1 b) (states L (q + 1)) +
    rsum (fun d => T l' c d * Int false (- (Ek k - E d + E b)) (fun k' => two q d b l k l' k')) (states L (q + 2)) +
    rsum (fun a => Int false (- (Ek k - E c + E a)) (fun k' => two (q - 1) c a l k l' k') * T l' a b) (states L (q - 1))) (leads nl).

(** ** Expansion *)
Lemma Isub : forall s x u v, Int s x (fun k => u k - v k) = Int s x u - Int s x v.
Proof.
  intros. rewrite (Iext s x _ (fun k => u k + (fun k => - v k) k)) by (intros; ring). rewrite (Iadd s x u (fun k => - v k)), Iopp. ring.
Qed.
Lemma Imul_r : forall s x a u, Int s x (fun k => u k * a) = Int s x u * a.
Proof. intros. rewrite (Iext s x _ (fun k => a * u k)) by (intros; ring). rewrite Imul. ring. Qed.
Definition cY (l i : nat) : nat -> C := fun k => conj (Y k l i).
Definition pY (l i : nat) : nat -> C := fun k => Y k l i.
Lemma Int_same : forall s z q x y l k l', Int s z (fun k' => same q x y l k l' k') =
  rsum (fun c => T l' x c * X k l (ind1 L c y q) * Fm z l' s) (states L (q + 1)) +
  rsum (fun a => X k l (ind1 L x a (q - 1)) * T l' a y * Fp z l' s) (states L (q - 1)) -
  rsum (fun a => T l x a * fp_ l k * Int s z (cY l' (ind1 L y a (q - 1)))) (states L (q - 1)) -
  rsum (fun c => Int s z (cY l' (ind1 L c x q)) * T l c y * fm_ l k) (states L (q + 1)).
Proof.
  intros. unfold same. rewrite Isub, Isub, Iadd. rewrite !Isum. f_equal; [f_equal; [f_equal|]|]; apply (rsum_ext C); intros u _.
  - unfold Fm. rewrite <- Imul. apply Iext. intros. ring.
  - unfold Fp. rewrite <- Imul. reflexivity.
  - rewrite Imul. reflexivity.
  - rewrite <- !Imul_r. reflexivity.
Qed.
Lemma Int_two : forall s z q d b l k l', Int s z (fun k' => two q d b l k l' k') =
  rsum (fun c => T l d c * fp_ l k * Int s z (pY l' (ind1 L c b q))) (states L (q + 1)) +
  rsum (fun c => Int s z (pY l' (ind1 L d c (q + 1))) * T l c b * fm_ l k) (states L (q + 1)) -
  rsum (fun c => T l' d c * X k l (ind1 L c b q) * Fp z l' s) (states L (q + 1)) -
  rsum (fun c => X k l (ind1 L d c (q + 1)) * T l' c b * Fm z l' s) (states L (q + 1)).
Proof.
  intros. unfold two. rewrite Isub, Isub, Iadd. rewrite !Isum. f_equal; [f_equal; [f_equal|]|]; apply (rsum_ext C); intros u _.
  - rewrite Imul. reflexivity.
  - rewrite <- !Imul_r. reflexivity.
  - unfold Fp. rewrite <- Imul. apply Iext. intros. ring.
  - unfold Fm. rewrite <- Imul. reflexivity.
Qed.
Lemma rsum_prod : forall A B (g : A * B -> C) l l', rsum g (list_prod l l') = rsum (fun a => rsum (fun b => g (a, b)) l') l.
Proof.
  induction l as [|a l IH]; intros l'; [reflexivity|]. cbn [list_prod]. rewrite (rsum_app C), (rsum_map C), IH. reflexivity.
Qed.
Definition S3 (A B : list nat) (g : nat -> nat -> nat -> C) : C := rsum (fun l => rsum (fun a => rsum (fun b => g l a b) B) A) (leads nl).
Lemma S3_lin : forall A B g, rsum (fun l => rsum (fun a => rsum (fun b => g l a b) B) A) (leads nl) = S3 A B g.
Proof. reflexivity. Qed.
Lemma S3_abl : forall A B g, rsum (fun a => rsum (fun b => rsum (fun l => g l a b) (leads nl)) B) A = S3 A B g.
Proof.
  intros. unfold S3. rewrite (rsum_swap C _ _ _ (leads nl) A). apply (rsum_ext C). intros a _. apply (rsum_swap C).
Qed.
Lemma S3_bal : forall A B g, rsum (fun b => rsum (fun a => rsum (fun l => g l a b) (leads nl)) A) B = S3 A B g.
Proof. intros. rewrite (rsum_swap C _ _ _ B A). apply S3_abl. Qed.
Lemma S3_bla : forall A B g, rsum (fun b => rsum (fun l => rsum (fun a => g l a b) A) (leads nl)) B = S3 A B g.
Proof. intros. rewrite (rsum_swap C _ _ _ B (leads nl)). unfold S3. apply (rsum_ext C). intros l _. apply (rsum_swap C). Qed.
Lemma S3_opp : forall A B g, S3 A B (fun l a b => - g l a b) = - S3 A B g.
Proof.
  intros. unfold S3. rewrite <- (rsum_opp C). apply (rsum_ext C). intros l _. rewrite <- (rsum_opp C). apply (rsum_ext C). intros a _. now rewrite <- (rsum_opp C).
Qed.
Lemma S3_ext : forall A B g g', (forall l a b, In a A -> In b B -> g l a b = g' l a b) -> S3 A B g = S3 A B g'.
Proof. intros. unfold S3. apply (rsum_ext C). intros l _. apply (rsum_ext C). intros a Ha. apply (rsum_ext C). intros b Hb. now apply H. Qed.
Lemma S3_plus : forall A B g g', S3 A B (fun l a b => g l a b + g' l a b) = S3 A B g + S3 A B g'.
Proof.
  intros. unfold S3. rewrite <- (rsum_plus C). apply (rsum_ext C). intros l _. rewrite <- (rsum_plus C). apply (rsum_ext C). intros a _. now rewrite <- (rsum_plus C).
Qed.

Local Ltac cr := repeat match goal with |- context [ofR (f ?l ?k)] => change (ofR (f l k)) with (fp_ l k) | |- context [ofR (1 - f ?l ?k)] => change (ofR (1 - f l k)) with (fm_ l k) end;
  match goal with |- @eq _ ?a ?b => change (@eq (car C) a b) end; ring.
Lemma rsum_two : forall A (g : A -> C) x y, rsum g [x; y] = g x + g y.
Proof. intros. transitivity (g x + (g y + 0)); [reflexivity|ring]. Qed.
Lemma rsum_cons : forall A (g : A -> C) x l, rsum g (x :: l) = g x + rsum g l.
Proof. reflexivity. Qed.
Section Terms.
Variables (k l : nat) (q : Z) (c b : nat).
Let Q := states L q. Let Qp := states L (q + 1). Let Qm := states L (q - 1). Let Q2 := states L (q + 2).
Let xs (u v : nat) : K := Ek k - E u + E v.
Definition tm1 := S3 Q Qp (fun l' b1 c1 => T l' c b1 * (T l' b1 c1 * X k l (ind1 L c1 b q) * Fm (xs b1 b) l' true)).
Definition tm2 := S3 Q Qm (fun l' b1 a1 => T l' c b1 * (X k l (ind1 L b1 a1 (q - 1)) * T l' a1 b * Fp (xs b1 b) l' true)).
Definition un1 := S3 Q Qm (fun l' b1 a1 => T l' c b1 * (T l b1 a1 * fp_ l k * Int true (xs b1 b) (cY l' (ind1 L b a1 (q - 1))))).
Definition un2 := S3 Q Qp (fun l' b1 c1 => T l' c b1 * (Int true (xs b1 b) (cY l' (ind1 L c1 b1 q)) * T l c1 b * fm_ l k)).
Definition tm5 := S3 Qp Q2 (fun l' c1 d1 => T l' c d1 * X k l (ind1 L d1 c1 (q + 1)) * Fm (xs c c1) l' true * T l' c1 b).
Definition tm6 := S3 Qp Q (fun l' c1 b1 => X k l (ind1 L c b1 q) * T l' b1 c1 * Fp (xs c c1) l' true * T l' c1 b).
Definition un5 := S3 Qp Q (fun l' c1 b1 => T l c b1 * fp_ l k * Int true (xs c c1) (cY l' (ind1 L c1 b1 q)) * T l' c1 b).
Definition un6 := S3 Qp Q2 (fun l' c1 d1 => Int true (xs c c1) (cY l' (ind1 L d1 c (q + 1))) * T l d1 c1 * fm_ l k * T l' c1 b).
Definition tm3 := S3 Q2 Qp (fun l' d c1 => T l' c d * (T l' d c1 * X k l (ind1 L c1 b q) * Fp (- xs d b) l' false)).
Definition tm4 := S3 Q2 Qp (fun l' d c1 => T l' c d * (X k l (ind1 L d c1 (q + 1)) * T l' c1 b * Fm (- xs d b) l' false)).
Definition un3 := S3 Q2 Qp (fun l' d c1 => T l' c d * (T l d c1 * fp_ l k * Int false (- xs d b) (pY l' (ind1 L c1 b q)))).
Definition un4 := S3 Q2 Qp (fun l' d c1 => T l' c d * (Int false (- xs d b) (pY l' (ind1 L d c1 (q + 1))) * T l c1 b * fm_ l k)).
Definition tm7 := S3 Qm Q (fun l' a b1 => T l' c b1 * X k l (ind1 L b1 a (q - 1)) * Fp (- xs c a) l' false * T l' a b).
Definition tm8 := S3 Qm Q (fun l' a b1 => X k l (ind1 L c b1 q) * T l' b1 a * Fm (- xs c a) l' false * T l' a b).
Definition un7 := S3 Qm Q (fun l' a b1 => T l c b1 * fp_ l k * Int false (- xs c a) (pY l' (ind1 L b1 a (q - 1))) * T l' a b).
Definition un8 := S3 Qm Q (fun l' a b1 => Int false (- xs c a) (pY l' (ind1 L c b1 q)) * T l b1 a * fm_ l k * T l' a b).

Lemma second_sum : second k l q c b = (tm1 + tm2 - un1 - un2) + (tm5 + tm6 - un5 - un6) + (un3 + un4 - tm3 - tm4) + (un7 + un8 - tm7 - tm8).
Proof.
  assert (D : forall A B B' (f1 f2 f3 f4 : nat -> nat -> nat -> C) (g : nat -> nat -> C),
    (forall l' a, g l' a = rsum (fun b => f1 l' a b) B + rsum (fun b => f2 l' a b) B' - rsum (fun b => f3 l' a b) B' - rsum (fun b => f4 l' a b) B) ->
    rsum (fun l' => rsum (fun a => g l' a) A) (leads nl) = S3 A B f1 + S3 A B' f2 - S3 A B' f3 - S3 A B f4).
  { intros A B B' f1 f2 f3 f4 g H. unfold S3. rewrite <- (rsum_plus C), <- !(rsum_minus C). apply (rsum_ext C). intros l' _.
    rewrite <- (rsum_plus C), <- !(rsum_minus C). apply (rsum_ext C). intros a _. apply H. }
  unfold second. rewrite !(rsum_plus C). f_equal; [f_equal; [f_equal|]|].
  - apply D. intros l' b1. rewrite Int_same. fold (xs b1 b). rewrite !(rsum_mul_l C). unfold Qp, Qm. ring.
  - apply D. intros l' c1. rewrite Int_same. fold (xs c c1). replace (q + 1 + 1)%Z with (q + 2)%Z by lia. replace (q + 1 - 1)%Z with q by lia.
    rewrite !(rsum_mul_r C). unfold Q2, Q. ring.
  - apply D. intros l' d. rewrite Int_two. fold (xs d b). rewrite !(rsum_mul_l C). unfold Qp. ring.
  - apply D. intros l' a. rewrite Int_two. fold (xs c a). replace (q - 1 + 1)%Z with q by lia. rewrite !(rsum_mul_r C). unfold Q. ring.
Qed.
(** the value of a call of get_at_k1 with its prefactor *)
Definition callv (t : call1 K) : C := let '(x, l1, i, cj, w) := t in w * (if cj then Int true x (cY l1 i) else Int false x (pY l1 i)).
Lemma iter_sum : rsum callv (iter_terms K L nl E T (Ek k) l (f l k) (1 - f l k) q c b) = - un1 - un2 - un5 + un3 + un4 - un6 + un7 + un8.
Proof.
  unfold iter_terms. rewrite !(rsum_app C). repeat rewrite (rsum_flat_map C).
  match goal with |- ?t1 + (?t25 + (?t3 + (?t4 + (?t6 + (?t7 + ?t8))))) = _ =>
    assert (E1 : t1 = - un1); [|assert (E25 : t25 = - un2 - un5); [|assert (E3 : t3 = un3); [|assert (E4 : t4 = un4);
    [|assert (E6 : t6 = - un6); [|assert (E7 : t7 = un7); [|assert (E8 : t8 = un8)]]]]]] end.
  - unfold un1. rewrite <- S3_opp. rewrite <- S3_bal. fold Qm. apply (rsum_ext C). intros a1 _. rewrite (rsum_flat_map C). fold Q. apply (rsum_ext C). intros b1 _.
    rewrite (rsum_map C). apply (rsum_ext C). intros l1 _. cbn [callv]. unfold xs. cr.
  - unfold un2, un5. rewrite <- (S3_abl Q Qp). rewrite <- (S3_bal Qp Q). fold Q. rewrite <- (rsum_opp C), <- (rsum_minus C). apply (rsum_ext C). intros b1 _.
    rewrite (rsum_flat_map C). fold Qp. rewrite <- (rsum_opp C), <- (rsum_minus C). apply (rsum_ext C). intros c1 _.
    rewrite (rsum_flat_map C). rewrite <- (rsum_opp C), <- (rsum_minus C). apply (rsum_ext C). intros l1 _. rewrite rsum_two. cbn [callv]. unfold xs. cr.
  - unfold un3. rewrite <- S3_bal. fold Qp. apply (rsum_ext C). intros c1 _. rewrite (rsum_flat_map C). fold Q2. apply (rsum_ext C). intros d1 _.
    rewrite (rsum_map C). apply (rsum_ext C). intros l1 _. cbn [callv]. unfold xs. cr.
  - unfold un4. rewrite <- S3_abl. fold Q2. apply (rsum_ext C). intros d1 _. rewrite (rsum_flat_map C). fold Qp. apply (rsum_ext C). intros c1 _.
    rewrite (rsum_map C). apply (rsum_ext C). intros l1 _. cbn [callv]. unfold xs. cr.
  - unfold un6. rewrite <- S3_opp. rewrite <- S3_bal. fold Q2. apply (rsum_ext C). intros d1 _. rewrite (rsum_flat_map C). fold Qp. apply (rsum_ext C). intros c1 _.
    rewrite (rsum_map C). apply (rsum_ext C). intros l1 _. cbn [callv]. unfold xs. cr.
  - unfold un7. rewrite <- S3_bal. fold Q. apply (rsum_ext C). intros b1 _. rewrite (rsum_flat_map C). fold Qm. apply (rsum_ext C). intros a1 _.
    rewrite (rsum_map C). apply (rsum_ext C). intros l1 _. cbn [callv]. unfold xs. cr.
  - unfold un8. rewrite <- S3_bal. fold Q. apply (rsum_ext C). intros b1 _. rewrite (rsum_flat_map C). fold Qm. apply (rsum_ext C). intros a1 _.
    rewrite (rsum_map C). apply (rsum_ext C). intros l1 _. cbn [callv]. unfold xs. cr.
  - rewrite E1, E25, E3, E4, E6, E7, E8. ring.
Qed.
Lemma local_sum : rsum (fun u => snd u * X k l (snd (fst u))) (kern1_ops K L nl E T Fp Fm (Ek k) q c b) =
  ofR (Ek k - E c + E b) * X k l (ind1 L c b q) - tm2 + tm7 - tm6 + tm8 - tm1 + tm3 - tm5 + tm4.
Proof.
  unfold kern1_ops. rewrite rsum_cons. rewrite !(rsum_app C). cbn [fst snd].
  match goal with |- ?d + (?t27 + (?t68 + (?t13 + ?t54))) = _ =>
    assert (E27 : t27 = - tm2 + tm7); [|assert (E68 : t68 = - tm6 + tm8); [|assert (E13 : t13 = - tm1 + tm3); [|assert (E54 : t54 = - tm5 + tm4)]]] end.
  - unfold tm2, tm7. rewrite <- S3_opp. rewrite <- (S3_abl Q Qm), <- (S3_bal Qm Q). rewrite (rsum_flat_map C), rsum_prod. fold Q Qm.
    rewrite <- (rsum_plus C). apply (rsum_ext C). intros b1 _. rewrite <- (rsum_plus C). apply (rsum_ext C). intros a1 _.
    rewrite (rsum_map C). rewrite <- (rsum_plus C). apply (rsum_ext C). intros l1 _. cbn [fst snd]. unfold xs. cr.
  - unfold tm6, tm8. rewrite <- S3_opp. rewrite <- (S3_bla Qp Q), <- (S3_bla Qm Q). rewrite (rsum_flat_map C). fold Q. 
    rewrite <- (rsum_plus C). apply (rsum_ext C). intros b1 _. rewrite (rsum_flat_map C). rewrite <- (rsum_plus C). apply (rsum_ext C). intros l1 _.
    rewrite (rsum_app C), !(rsum_map C). fold Qp Qm. f_equal; apply (rsum_ext C); intros z _; cbn [fst snd]; unfold xs; cr.
  - unfold tm1, tm3. rewrite <- S3_opp. rewrite <- (S3_bla Q Qp), <- (S3_bla Q2 Qp). rewrite (rsum_flat_map C). fold Qp. 
    rewrite <- (rsum_plus C). apply (rsum_ext C). intros c1 _. rewrite (rsum_flat_map C). rewrite <- (rsum_plus C). apply (rsum_ext C). intros l1 _.
    rewrite (rsum_app C), !(rsum_map C). fold Q Q2. f_equal; apply (rsum_ext C); intros z _; cbn [fst snd]; unfold xs; cr.
  - unfold tm5, tm4. rewrite <- S3_opp. rewrite <- (S3_bal Qp Q2), <- (S3_abl Q2 Qp). rewrite (rsum_flat_map C), rsum_prod. fold Q2 Qp.
    rewrite <- (rsum_plus C). apply (rsum_ext C). intros d1 _. rewrite <- (rsum_plus C). apply (rsum_ext C). intros c1 _.
    rewrite (rsum_map C). rewrite <- (rsum_plus C). apply (rsum_ext C). intros l1 _. cbn [fst snd]. unfold xs. cr.
  - rewrite E27, E68, E13, E54. ring.
Qed.
Lemma row_sum : rsum (fun u => snd u * X k l (snd (fst u))) (kern1_ops K L nl E T Fp Fm (Ek k) q c b) =
  ofR (Ek k - E c + E b) * X k l (ind1 L c b q) - second k l q c b + rsum callv (iter_terms K L nl E T (Ek k) l (f l k) (1 - f l k) q c b).
Proof. rewrite second_sum, iter_sum, local_sum. ring. Qed.
End Terms.

(** ** Rows of the arrays *)
Lemma ops_row : forall x q c b u, In u (kern1_ops K L nl E T Fp Fm x q c b) -> fst (fst u) = ind1 L c b q.
Proof.
  intros x q c b u H. unfold kern1_ops in H. destruct H as [<-|H]; [reflexivity|].
  repeat (apply in_app_iff in H; destruct H as [H|H]); apply in_flat_map in H; destruct H as (p & Hp & H).
  - destruct p. apply in_map_iff in H. now destruct H as (? & <- & _).
  - apply in_flat_map in H. destruct H as (l1 & _ & H). apply in_app_iff in H. destruct H as [H|H]; apply in_map_iff in H; now destruct H as (? & <- & _).
  - apply in_flat_map in H. destruct H as (l1 & _ & H). apply in_app_iff in H. destruct H as [H|H]; apply in_map_iff in H; now destruct H as (? & <- & _).
  - destruct p. apply in_map_iff in H. now destruct H as (? & <- & _).
Qed.
Lemma below_pos : forall q y, (0 <= q)%Z -> In y (states L (q - 1)) -> (0 <= q - 1)%Z.
Proof. intros q y Hq Hy. destruct (Z.eq_dec q 0) as [->|]; [|lia]. simpl in Hy. rewrite (cl_below L CL) in Hy. destruct Hy. Qed.
Lemma ops_col : forall x q c b u, (0 <= q)%Z -> In c (states L (q + 1)) -> In b (states L q) ->
  In u (kern1_ops K L nl E T Fp Fm x q c b) -> snd (fst u) < ly_ndm1 L.
Proof.
  intros x q c b u Hq Hc Hb H. unfold kern1_ops in H. destruct H as [<-|H]; [now apply (l1_ind L L1)|].
  repeat (apply in_app_iff in H; destruct H as [H|H]); apply in_flat_map in H; destruct H as (p & Hp & H).
  - destruct p as [b1 a1]. apply in_prod_iff in Hp. apply in_map_iff in H. destruct H as (? & <- & _). cbn [fst snd].
    apply (l1_ind L L1); [apply (below_pos q a1); tauto|replace (q - 1 + 1)%Z with q by lia; tauto|tauto].
  - apply in_flat_map in H. destruct H as (l1 & _ & H). apply in_app_iff in H. destruct H as [H|H]; apply in_map_iff in H; destruct H as (? & <- & _); cbn [fst snd];
    now apply (l1_ind L L1).
  - apply in_flat_map in H. destruct H as (l1 & _ & H). apply in_app_iff in H. destruct H as [H|H]; apply in_map_iff in H; destruct H as (? & <- & _); cbn [fst snd];
    now apply (l1_ind L L1).
  - destruct p as [d1 c1]. apply in_prod_iff in Hp. apply in_map_iff in H. destruct H as (? & <- & _). cbn [fst snd].
    apply (l1_ind L L1); [lia|replace (q + 1 + 1)%Z with (q + 2)%Z by lia; tauto|tauto].
Qed.
Lemma kern1_row : forall k l q c b, In q (charges1 L) -> In c (states L (q + 1)) -> In b (states L q) ->
  rsum (fun x => kern1 K L nl E T Fp Fm (Ek k) (ind1 L c b q, x) * X k l x) (seq 0 (ly_ndm1 L)) =
  rsum (fun u => snd u * X k l (snd (fst u))) (kern1_ops K L nl E T Fp Fm (Ek k) q c b).
Proof.
  intros k l q c b Hq Hc Hb. unfold kern1. rewrite (row_apply _ eqNN (seq 0 (ly_ndm1 L)) _ (X k l) _ (seq_NoDup _ _)).
  - apply (each_row _ (kern1_ops K L nl E T Fp Fm (Ek k)) (fun u => fst (fst u)) (fun u => snd u * X k l (snd (fst u)))); auto. apply ops_row.
  - intros u Hu. apply in_each in Hu. destruct Hu as (q' & c' & b' & Hq' & Hc' & Hb' & Hu). apply in_seq.
    assert (A := ops_col _ _ _ _ _ (charges1_pos _ Hq') Hc' Hb' Hu). lia.
Qed.
Lemma kern0_row : forall l fp fm (phi : Z -> C) q c b, In q (charges1 L) -> In c (states L (q + 1)) -> In b (states L q) ->
  rsum (fun j => kern0 K L T l fp fm (ind1 L c b q, Z.of_nat j) * phi (Z.of_nat j)) (seq 0 (n0 L)) =
  rsum (fun b1 => T l c b1 * ofR fp * phi (ind0 L b1 b q)) (states L q) - rsum (fun c1 => T l c1 b * ofR fm * phi (ind0 L c c1 (q + 1))) (states L (q + 1)).
Proof.
  intros l fp fm phi q c b Hq Hc Hb. rewrite <- (rsum_map C _ _ (fun j => kern0 K L T l fp fm (ind1 L c b q, j) * phi j) Z.of_nat).
  unfold kern0. rewrite (row_apply _ eqNZ (map Z.of_nat (seq 0 (n0 L))) _ phi _).
  - rewrite (each_row _ (kern0_ops K L T l fp fm) (fun u => fst (fst u)) (fun u => snd u * phi (snd (fst u)))); auto.
    + unfold kern0_ops. rewrite (rsum_app C), !(rsum_map C). rewrite <- !(rsum_opp C) || idtac.
      assert (Q0 := charges1_pos _ Hq).
      transitivity (rsum (fun b1 => T l c b1 * ofR fp * phi (ind0 L b1 b q)) (states L q) + rsum (fun c1 => - (T l c1 b * ofR fm * phi (ind0 L c c1 (q + 1)))) (states L (q + 1))).
      * f_equal; apply (rsum_ext C); intros z Hz; cbn [fst snd].
        -- rewrite at0_ind; auto.
        -- rewrite at0_ind; auto; [|lia]. set (w := ofR fm : C). ring.
      * rewrite (rsum_opp C). ring.
    + intros q' c' b' u Hu. unfold kern0_ops in Hu. apply in_app_iff in Hu. destruct Hu as [Hu|Hu]; apply in_map_iff in Hu; now destruct Hu as (? & <- & _).
  - apply FinFun.Injective_map_NoDup; [intros x y; lia|apply seq_NoDup].
  - intros u Hu. apply in_each in Hu. destruct Hu as (q' & c' & b' & Hq' & Hc' & Hb' & Hu). assert (Q0 := charges1_pos _ Hq').
    assert (R : exists x y z, (0 <= z)%Z /\ In x (states L z) /\ In y (states L z) /\ snd (fst u) = at0 L x y z).
    { unfold kern0_ops in Hu. apply in_app_iff in Hu. destruct Hu as [Hu|Hu]; apply in_map_iff in Hu; destruct Hu as (z & <- & Hz); cbn [fst snd].
      - exists z, b', q'. auto. - exists c', z, (q' + 1)%Z. repeat split; auto; lia. }
    destruct R as (x & y & z & Hz & Hx & Hy & ->). rewrite at0_ind; auto. assert (A := cl_idx L CL x y z Hz Hx Hy).
    apply in_map_iff. exists (Z.to_nat (ind0 L x y z)). split; [lia|]. apply in_seq. unfold n0. lia.
Qed.
Lemma iter_row : forall GH GU x l fp fm q c b j, In q (charges1 L) -> In c (states L (q + 1)) -> In b (states L q) ->
  iter_kern K L nl E T GH GU x l fp fm (ind1 L c b q, j) = rsum (fun t => pick K GH GU t j) (iter_terms K L nl E T x l fp fm q c b).
Proof.
  intros GH GU x l fp fm q c b j Hq Hc Hb. unfold iter_kern. cbn [fst snd]. apply run_writes_val.
  - intros u Hu E1. apply in_each in Hu. destruct Hu as (q' & c' & b' & Hq' & Hc' & Hb' & [<-|[]]). cbn [fst snd] in *.
    destruct (l1_inj L L1 c' b' q' c b q) as (-> & -> & ->); auto; now apply charges1_pos.
  - right. eexists. split; [apply in_each; exists q, c, b; split; [auto|split; [auto|split; [auto|now left]]]|]. reflexivity.
Qed.

(** ** The equation *)
(** [x] is one more application of the local equation with the non-local terms of [Y] *)
Lemma equation : forall (phi : Z -> C) k l q c b, In q (charges1 L) -> In c (states L (q + 1)) -> In b (states L q) ->
  rsum (fun x => kern1 K L nl E T Fp Fm (Ek k) (ind1 L c b q, x) * X k l x) (seq 0 (ly_ndm1 L)) =
  rsum (fun j => kern0 K L T l (f l k) (1 - f l k) (ind1 L c b q, Z.of_nat j) * phi (Z.of_nat j)) (seq 0 (n0 L)) +
  rsum callv (iter_terms K L nl E T (Ek k) l (f l k) (1 - f l k) q c b) ->
  ofR (Ek k - E c + E b) * X k l (ind1 L c b q) =
  rsum (fun b1 => T l c b1 * fp_ l k * phi (ind0 L b1 b q)) (states L q) -
  rsum (fun c1 => T l c1 b * fm_ l k * phi (ind0 L c c1 (q + 1))) (states L (q + 1)) + second k l q c b.
Proof.
  intros phi k l q c b Hq Hc Hb H. rewrite kern1_row, row_sum in H by auto. rewrite kern0_row in H by auto.
  change (ofR (f l k)) with (fp_ l k) in H. change (ofR (1 - f l k)) with (fm_ l k) in H.
  match type of H with ?a - ?s + ?i = ?u - ?v + ?i => transitivity (a - s + i + s - i); [ring|]; rewrite H; ring end.
Qed.
End Eq.
