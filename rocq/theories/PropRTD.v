(** C41: the kernels of the RTD approach conserve probability lead by lead, and its currents count electrons.
    The diagrams (integralD, integralX), the tables of rates, the special functions, the cutoff tests, the inverse Liouvillian
    and the kernel from diagonal to non-diagonal elements are arbitrary. *)
From Coq Require Import String List Arith Lia ZArith QArith Bool Permutation Ring.
From Coq Require Qcanon.
From Verif Require Import Base Indexing IndexingProofs Qn DMIndex DMIndexProofs DMReach PropDMIndex CRing Layout Coherences Kernel KernelProofs
  PauliProofs PropKernel MatrixFree PropSolve PropVN2 Selection PropSelection RTDK.
Import ListNotations.
Open Scope nat_scope.
Local Notation length := List.length.

(** ** The diagonal elements are numbered in the order in which statesdm lists the states *)
Lemma map_number : forall A (f : A -> Z) l k, (forall j x, nth_error l j = Some x -> f x = Z.of_nat (k + j)) ->
  map f l = map Z.of_nat (seq k (length l)).
Proof.
  induction l as [|x l IH]; intros k H; auto. cbn [map List.length seq]. f_equal.
  - rewrite (H 0 x eq_refl). f_equal. lia.
  - apply IH. intros j y Hj. rewrite (H (S j) y Hj). f_equal. lia.
Qed.

Lemma flat_map_ext_in : forall A B (f g : A -> list B) l, (forall x, In x l -> f x = g x) -> flat_map f l = flat_map g l.
Proof.
  induction l as [|x l IH]; intros H; auto. cbn [flat_map]. rewrite H by now left.
  now rewrite IH by (intros; apply H; now right).
Qed.

Lemma diag_order_reach : forall n name si dm, 1 <= n -> ix_of name n <> IxSsq -> reach KDM n name si dm ->
  diag_list (lay_of dm) = map Z.of_nat (seq 0 (dm_npauli dm)).
Proof.
  intros n name si dm Hn Hix R0. pose proof (reach_kind n name si dm Hn R0) as (_ & HC).
  assert (IND : forall b c k, get_ind_dm0 dm b b c = Some k -> ind0 (lay_of dm) b b (Z.of_nat c) = k).
  { intros. eapply ind0_dm; eauto. }
  pose proof R0 as R. apply reach_reached in R; auto.
  destruct (rc_make _ _ _ _ _ R) as (qn & qi & d0 & lst & E & LL & SEL & SO & HQ).
  assert (ST : forall c, states (lay_of dm) (Z.of_nat c) = nth c (lst ++ [[]]) []).
  { intros c. rewrite states_nat. unfold considered.
    pose proof (dm_fields KDM (ix_of name n) qn qi (n + 1) d0 (lst ++ [[]])) as F. rewrite <- E in F.
    destruct F as (_ & _ & F3 & _). now rewrite F3. }
  assert (NP : dm_npauli dm = length (diag_items (n + 1) (lst ++ [[]]))).
  { rewrite E. apply dm_npauli_eq. auto. }
  rewrite NP. rewrite <- (map_number _ (fun x => ind0 (lay_of dm) (snd x) (snd x) (Z.of_nat (fst x)))
    (diag_items (n + 1) (lst ++ [[]])) 0).
  - unfold diag_list, diag_items, charges. cbn [ly_ncharge lay_of]. rewrite HC.
    generalize (seq 0 (n + 1)). intros l. induction l as [|c l IH]; auto.
    cbn [map flat_map]. rewrite map_app, IH, ST, map_map. reflexivity.
  - intros j [c b] Hj. cbn [fst snd]. apply IND.
    assert (HE : In (mkEv j b b c true true) (dm_log dm)).
    { rewrite E. apply log_in; auto. left. exists j, c, b. auto. }
    rewrite <- LL in SO. rewrite E in HE. destruct (get_entered KDM (ix_of name n) qn qi (n + 1) d0 _ SO Hix _ HE) as (A & _). rewrite E. exact A.
Qed.

Lemma diag_order : forall n name si L, 1 <= n -> ix_of name n <> IxSsq -> system n name si L ->
  diag_list L = map Z.of_nat (seq 0 (ly_npauli L)).
Proof.
  intros n name si L Hn Hix [dm R|dm E dE L' R Hp HE RM].
  - now apply (diag_order_reach n name si).
  - pose proof (layout_reach _ _ _ _ Hn Hix R) as LO. pose proof (fresh_reach _ _ _ _ Hn Hix R) as FL.
    destruct (rm_fields (qfar E dE) (qfar_sym E dE) (fun b => qfar_diag E dE b HE) (lay_of dm) LO FL Hp L' RM)
      as (F1 & F2 & _ & _ & _ & ST & _ & _ & _ & I0).
    rewrite F2. cbn [ly_npauli lay_of]. rewrite <- (diag_order_reach n name si) by auto.
    unfold diag_list, charges. rewrite F1. apply flat_map_ext_in. intros c Hc. rewrite ST.
    apply map_ext_in. intros b Hb. rewrite I0. unfold new_ind.
    assert (0 <= c)%Z by (apply in_map_iff in Hc; destruct Hc as (k & <- & _); lia).
    destruct (lo_diag _ LO b c) as (B & _); auto.
    destruct (Z.eqb_spec (ind0 (lay_of dm) b b c) (-1)); [lia|].
    assert (KD : forall k, k < ly_npauli (lay_of dm) -> keep (qfar E dE) (lay_of dm) k = true).
    { intros. eapply keep_diag; eauto using qfar_sym. intros; now apply qfar_diag. }
    rewrite KD by lia. rewrite rank_all by (intros; apply KD; lia). lia.
Qed.

Section C41.
Variable K : CRing.
Local Notation C := (Cx K).
Local Open Scope rng_scope.
Add Ring KrRTD : (rth K).
Add Ring CrRTD : (rth (Cx K)).
Variables (n : nat) (name : string) (si : SI) (L : Lay).
Hypotheses (Hn : (1 <= n)%nat) (Hix : ix_of name n <> IxSsq) (SY : system n name si L).
Variables (nl ns : nat) (E : nat -> K) (T : nat -> nat -> nat -> C) (tl : nat -> nat -> C).
Variables (pf : nat -> nat -> bool -> K) (pi h : K) (F Fm ph phm : nat -> K -> K).
Variables (intD intX : Z -> Z -> K -> K -> K -> nat -> nat -> bool -> C).
Variables (is0 lt2 gt3 imgt3 imgt : C -> bool).
Variables (lnn : nat -> nat -> K) (snd_im snd_re : nat -> Z -> K).
Let LO : layout L := system_layout n name si L Hn Hix SY.
Local Notation lds := (leads nl).
Local Notation np := (ly_npauli L).
Local Notation wdd0 := (wdd0 K L nl E T pf intD intX is0 lt2 gt3 imgt3).
Local Notation re_wdn := (re_wdn K L nl E T pi F Fm ph).
Local Notation im_wdn := (im_wdn K L nl E T pi F Fm ph).
Local Notation wcorr := (wcorr K L nl E T pi F Fm ph lnn snd_im snd_re).
Local Notation wdd := (wdd K L nl E T pf pi F Fm ph intD intX is0 lt2 gt3 imgt3 lnn snd_im snd_re).
Local Notation rtd_kern := (rtd_kern K L nl E T pf pi F Fm ph intD intX is0 lt2 gt3 imgt3 lnn snd_im snd_re).
Local Notation rtd_current := (rtd_current K L nl E T pf pi h F Fm ph intD intX is0 lt2 gt3 imgt3 lnn snd_im snd_re).
Local Notation rtd_energy_current :=
  (rtd_energy_current K L nl ns E T tl pf pi h F Fm ph phm intD intX is0 lt2 gt3 imgt3 imgt lnn snd_im snd_re).

(** what an update adds to column [j] of the matrix of lead [l] *)
Definition hit (l : nat) (j : Z) (u : upd K) : K :=
  if (Nat.eqb (fst (fst u)) l && Z.eqb (snd (snd (fst u))) j)%bool then snd u else 0.
Definition row_ok (u : upd K) : Prop := (0 <= fst (snd (fst u)) < Z.of_nat np)%Z.

Lemma col_sum : forall us l j, Forall row_ok us ->
  rsum (fun i => run_updates eq3 us zeros (l, (Z.of_nat i, j))) (seq 0 np) = rsum (hit l j) us.
Proof.
  intros us l j OK.
  transitivity (rsum (fun i => rsum (fun u => if eq3 (l, (Z.of_nat i, j)) (fst u) then snd u else 0) us) (seq 0 np)).
  { apply (rsum_ext K). intros i _. rewrite run_updates_sum. unfold zeros. ring. }
  rewrite (rsum_swap K). apply (rsum_ext K). intros u Hu. rewrite Forall_forall in OK. specialize (OK u Hu).
  unfold row_ok in OK. destruct u as [[l' [i0 j']] v]. unfold hit. cbn [fst snd] in *.
  rewrite (rsum_single K _ _ _ (Z.to_nat i0)).
  - destruct (eq3 _ _) as [e|e].
    + injection e as -> _ ->. now rewrite Nat.eqb_refl, Z.eqb_refl.
    + destruct (Nat.eqb_spec l' l); cbn [andb]; auto. destruct (Z.eqb_spec j' j); auto. subst. exfalso. apply e.
      rewrite Z2Nat.id by lia. reflexivity.
  - apply seq_NoDup.
  - apply in_seq. lia.
  - intros y _ Hy. destruct (eq3 _ _) as [e|e]; auto. injection e as _ X _. exfalso. apply Hy. lia.
Qed.

Lemma all_flat : forall A B (P : B -> Prop) (f : A -> list B) l, (forall a, In a l -> Forall P (f a)) -> Forall P (flat_map f l).
Proof.
  intros A B P f l H. apply Forall_forall. intros x Hx. apply in_flat_map in Hx. destruct Hx as (a & Ha & Hx).
  specialize (H a Ha). rewrite Forall_forall in H. auto.
Qed.

Lemma below : forall q b, (0 <= q)%Z -> In b (states L (q - 1)) -> (0 <= q - 1)%Z.
Proof.
  intros q b Hq Hb. destruct (Z.eq_dec q 0) as [->|]; [|lia]. change (0 - 1)%Z with (-1)%Z in Hb. rewrite (lo_below L LO) in Hb.
  destruct Hb.
Qed.
Definition here (b : nat) (c : Z) : Prop := (0 <= c)%Z /\ In b (states L c).
Definition call_ok (x : call2 K) : Prop := let '(Add2 _ _ _ _ _ a3 c3 a4 c4) := x in here a3 c3 /\ here a4 c4.

Lemma col2_ok : forall a0 q, here a0 q -> Forall call_ok (col2 K L nl E T intD intX is0 lt2 gt3 imgt3 a0 q).
Proof.
  intros a0 q [Hq Ha]. unfold col2, insD, insX.
  apply all_flat. intros [r0 r1] _.
  repeat match goal with
    | |- Forall _ (let _ := _ in _) => cbv zeta
    | |- Forall _ (if ?b then _ else _) => destruct b
    | |- Forall _ [] => constructor
    | |- Forall _ (_ ++ _) => apply Forall_app; split
    | |- Forall _ (flat_map _ _) => apply all_flat; intros
    | |- Forall _ (_ :: _) => constructor
    end.
  all: cbn [call_ok]; unfold here.
  all: repeat split; auto; try lia; eapply below; eauto.
Qed.

Lemma diag_row : forall b c, here b c -> (0 <= ind0 L b b c < Z.of_nat np)%Z.
Proof. intros b c [Hc Hb]. now destruct (lo_diag L LO b c Hc Hb). Qed.

Lemma add2_ok : forall x, call_ok x -> Forall row_ok (add2 K L x).
Proof.
  intros [r f i0 i1 a3 c3 a4 c4] [H3 H4]. pose proof (diag_row _ _ H3). pose proof (diag_row _ _ H4).
  unfold add2. repeat constructor; cbn; lia.
Qed.
Lemma set_dd_ok : forall l x y b c aa, here b c -> Forall row_ok (set_dd K l x y (ind0 L b b c) aa).
Proof. intros. pose proof (diag_row _ _ H). unfold set_dd. repeat constructor; cbn; lia. Qed.
Lemma row1_ok : forall b c, here b c -> Forall row_ok (row1 K L nl pf b c).
Proof.
  intros b c H. unfold row1. apply Forall_app; split; apply all_flat; intros; cbv zeta; apply all_flat; intros; now apply set_dd_ok.
Qed.
Lemma each_state_ok : forall f, (forall b c, here b c -> Forall row_ok (f b c)) -> Forall row_ok (each_state L f).
Proof.
  intros f H. unfold each_state. apply all_flat. intros c Hc. apply all_flat. intros b Hb. apply charges_in in Hc.
  destruct (is_unique L b b c); [|constructor]. apply H. split; auto; lia.
Qed.
(** the sum over all states *)
Lemma each_state_sum : forall (g : upd K -> K) f, rsum g (each_state L f) =
  rsum (fun c => rsum (fun b => rsum g (f b c)) (states L c)) (charges L).
Proof.
  intros g f. unfold each_state. rewrite rsum_flat_map. apply (rsum_ext K). intros c Hc. rewrite rsum_flat_map.
  apply (rsum_ext K). intros b Hb. apply charges_in in Hc. unfold is_unique.
  destruct (lo_diag L LO b c) as (_ & -> & _); auto. lia.
Qed.

Lemma add2_hit : forall l j x, rsum (hit l j) (add2 K L x) = 0.
Proof.
  intros l j [r f i0 i1 a3 c3 a4 c4]. unfold add2. cbn [rsum]. unfold hit. cbn [fst snd].
  destruct (Nat.eqb r l); cbn [andb]; destruct (Z.eqb i0 j), (Z.eqb i1 j); ring.
Qed.

(** sums over the leads select one *)
Lemma pick_lead : forall l (f : nat -> K), rsum (fun l' => if Nat.eqb l' l then f l' else 0) lds = if (l <? nl)%nat then f l else 0.
Proof.
  intros l f. destruct (Nat.ltb_spec l nl).
  - rewrite rsum_if_nat; auto; unfold leads; [apply seq_NoDup|apply in_seq; lia].
  - apply (rsum_0 K). intros y Hy. unfold leads in Hy. apply in_seq in Hy. destruct (Nat.eqb_spec y l); auto. lia.
Qed.

(** probability that flows between state b of charge q and state d of charge q+1, in column j *)
Definition flow1 (l : nat) (j : Z) (d b : nat) (q : Z) : K :=
  if (l <? nl)%nat then (if Z.eqb (ind0 L d d (q + 1)) j then - pf l (ind1 L d b q) true else 0) +
                        (if Z.eqb (ind0 L b b q) j then pf l (ind1 L d b q) false else 0) else 0.
Lemma set_dd_hit : forall l j bb aa (x y : nat -> K),
  rsum (hit l j) (flat_map (fun l' => set_dd K l' (x l') (y l') bb aa) lds) =
  if (l <? nl)%nat then (if Z.eqb bb j then x l else 0) + (if Z.eqb aa j then y l else 0) else 0.
Proof.
  intros l j bb aa x y. rewrite rsum_flat_map. rewrite <- (pick_lead l (fun l' => (if Z.eqb bb j then x l' else 0) + (if Z.eqb aa j then y l' else 0))).
  apply (rsum_ext K). intros l' _. unfold set_dd. cbn [rsum]. unfold hit. cbn [fst snd].
  destruct (Nat.eqb l' l); cbn [andb]; destruct (Z.eqb bb j), (Z.eqb aa j); ring.
Qed.
Lemma row1_hit : forall l j b c, rsum (hit l j) (row1 K L nl pf b c) =
  rsum (fun a => flow1 l j b a (c - 1)) (states L (c - 1)) - rsum (fun d => flow1 l j d b c) (states L (c + 1)).
Proof.
  intros l j b c. unfold row1. rewrite rsum_app, !rsum_flat_map.
  assert (X : forall x y z : K, x = y -> z = - (rsum (fun d => flow1 l j d b c) (states L (c + 1))) ->
    x + z = y - rsum (fun d => flow1 l j d b c) (states L (c + 1))) by (intros x y z -> ->; ring).
  apply X; clear X.
  - apply (rsum_ext K). intros a _. cbv zeta. rewrite set_dd_hit. unfold flow1. replace (c - 1 + 1)%Z with c by lia. reflexivity.
  - rewrite <- rsum_opp. apply (rsum_ext K). intros d _. cbv zeta. rewrite set_dd_hit. unfold flow1.
    destruct (l <? nl)%nat; [|ring]. destruct (Z.eqb _ j), (Z.eqb _ j); ring.
Qed.

Lemma wdd0_columns : forall l j, rsum (fun i => wdd0 (l, (Z.of_nat i, j))) (seq 0 np) = 0.
Proof.
  intros l j. unfold RTDK.wdd0. rewrite col_sum.
  2: { apply each_state_ok. intros b c H. apply Forall_app. split; [now apply row1_ok|].
       pose proof (col2_ok b c H) as OK. apply all_flat. intros x Hx. rewrite Forall_forall in OK. apply add2_ok. auto. }
  rewrite each_state_sum.
  set (up := fun q => rsum (fun d => rsum (fun b => flow1 l j d b q) (states L q)) (states L (q + 1))).
  transitivity (rsum (fun c => up (c - 1)%Z - up c) (charges L)).
  { apply (rsum_ext K). intros c _.
    transitivity (rsum (fun b => rsum (fun a => flow1 l j b a (c - 1)) (states L (c - 1)) -
                                 rsum (fun d => flow1 l j d b c) (states L (c + 1))) (states L c)).
    { apply (rsum_ext K). intros b _. rewrite rsum_app, row1_hit. rewrite rsum_flat_map.
      rewrite (rsum_0 K _ _ (col2 K L nl E T intD intX is0 lt2 gt3 imgt3 b c)); [ring|]. intros. apply add2_hit. }
    rewrite rsum_minus. unfold up. replace (c - 1 + 1)%Z with c by lia. f_equal. apply rsum_swap. }
  rewrite rsum_minus. destruct (shift_links K L up) as [A B].
  - unfold up. rewrite (lo_below L LO). apply (rsum_0 K). reflexivity.
  - unfold up. replace (Z.of_nat (ly_ncharge L) - 1 + 1)%Z with (Z.of_nat (ly_ncharge L)) by lia. now rewrite (lo_above L LO).
  - rewrite A, B. ring.
Qed.

(** ** The kernel from non-diagonal to diagonal elements *)
Section Dn.
Variable part : K * K -> K.
Hypothesis up_zero : forall (t2 : C) f1 f2 p1 p2,
  part (jump K pi t2 (f1 + f2) (1 * p1 - 1 * p2)) + (part (stay1 K pi t2 f2 (1 * p2)) + part (stay2 K pi t2 f1 (1 * p1))) = 0.
Hypothesis down_zero : forall (t2 : C) f1 f2 p1 p2,
  part (jump K pi t2 (f1 + f2) (- (1) * p1 - - (1) * p2)) + (part (stay2 K pi t2 f1 (- (1) * p1)) + part (stay1 K pi t2 f2 (- (1) * p2))) = 0.
Local Notation dnc := (dn_col K L nl E T pi F Fm ph).
Definition pu (e : dn_el K) : upd K := (fst e, part (snd e)).

Lemma dn_rows : forall a1 b1 c, (0 <= c)%Z -> Forall row_ok (map pu (dnc a1 b1 c)).
Proof.
  intros a1 b1 c Hc. apply Forall_forall. intros u Hu. apply in_map_iff in Hu. destruct Hu as (e & <- & He).
  revert e He. apply Forall_forall. unfold dn_col. cbv zeta.
  assert (M : forall b q (g : nat -> K * K) j, here b q ->
     Forall (fun e => row_ok (pu e)) (map (fun l => ((l, (ind0 L b b q, j)), g l)) lds)).
  { intros b q g j H. apply Forall_forall. intros e He. apply in_map_iff in He. destruct He as (l & <- & _).
    pose proof (diag_row b q H). unfold row_ok, pu. cbn [fst snd]. lia. }
  repeat match goal with
    | |- Forall _ (if ?b then _ else _) => destruct b
    | |- Forall _ [] => constructor
    | |- Forall _ (_ ++ _) => apply Forall_app; split
    | |- Forall _ (flat_map _ _) => apply all_flat; intros
    end.
  all: apply (M _ _ (fun l => _)).
  all: split; auto; try lia; eapply below; eauto.
Qed.

Lemma dn_hit1 : forall l j0 j i (g : nat -> K * K),
  rsum (hit l j) (map pu (map (fun l' => ((l', (i, j0)), g l')) lds)) =
  if (l <? nl)%nat then if Z.eqb j0 j then part (g l) else 0 else 0.
Proof.
  intros. rewrite map_map, rsum_map. rewrite <- (pick_lead l (fun l' => if Z.eqb j0 j then part (g l') else 0)).
  apply (rsum_ext K). intros l' _. unfold hit, pu. cbn [fst snd]. destruct (Nat.eqb l' l); cbn [andb]; auto.
Qed.

Lemma pick_state : forall c x (g : nat -> K), here x c -> rsum (fun y => if Nat.eqb x y then g y else 0) (states L c) = g x.
Proof.
  intros c x g [Hc Hx]. rewrite <- (rsum_if_nat K g (states L c) x); auto.
  - apply (rsum_ext K). intros y _. now rewrite Nat.eqb_sym.
  - now apply (lo_nodup L LO).
Qed.

Lemma dn_zero : forall l j a1 b1 c, here a1 c -> here b1 c -> rsum (hit l j) (map pu (dnc a1 b1 c)) = 0.
Proof.
  intros l j a1 b1 c Ha Hb. unfold dn_col. cbv zeta. rewrite !map_app, !rsum_app.
  set (top := (c =? Z.of_nat (ly_ncharge L) - 1)%Z). set (bottom := (c =? 0)%Z).
  rewrite PropVN2.map_flat_map, (rsum_flat_map K).
  set (on := fun x : K => if (l <? nl)%nat then if Z.eqb (nd_ind L a1 b1 c) j then x else 0 else 0).
  assert (ON : forall x y, on x + on y = on (x + y)).
  { intros. unfold on. destruct (l <? nl)%nat; [destruct (Z.eqb _ j)|]; ring. }
  transitivity (
    (if top then 0 else rsum (fun x => on (part (jump K pi (T l x a1 * conj (T l x b1)) (F l (E x - E a1) + F l (E x - E b1))
                                                    (dphi K ph 1 l (E x - E a1) (E x - E b1))))) (states L (c + 1))) +
    ((if bottom then 0 else rsum (fun x => on (part (jump K pi (T l b1 x * conj (T l a1 x)) (Fm l (E b1 - E x) + Fm l (E a1 - E x))
                                                    (dphi K ph (- (1)) l (E b1 - E x) (E a1 - E x))))) (states L (c - 1))) +
     rsum (fun a2 =>
       (if top then 0 else rsum (fun x =>
         (if Nat.eqb b1 a2 then on (part (stay1 K pi (T l x a1 * conj (T l x a2)) (F l (E x - E a2)) (1 * ph l (E x - E a2)))) else 0) +
         (if Nat.eqb a1 a2 then on (part (stay2 K pi (T l x a2 * conj (T l x b1)) (F l (E x - E a2)) (1 * ph l (E x - E a2)))) else 0))
         (states L (c + 1))) +
       (if bottom then 0 else rsum (fun x =>
         (if Nat.eqb b1 a2 then on (part (stay2 K pi (T l a2 x * conj (T l a1 x)) (Fm l (E a2 - E x)) (- (1) * ph l (E a2 - E x)))) else 0) +
         (if Nat.eqb a1 a2 then on (part (stay1 K pi (T l b1 x * conj (T l a2 x)) (Fm l (E a2 - E x)) (- (1) * ph l (E a2 - E x)))) else 0))
         (states L (c - 1)))) (states L c))).
  { f_equal; [|f_equal].
    - destruct top; auto. rewrite PropVN2.map_flat_map, (rsum_flat_map K). apply (rsum_ext K). intros x _.
      apply (dn_hit1 l _ j _ (fun l' => _)).
    - destruct bottom; auto. rewrite PropVN2.map_flat_map, (rsum_flat_map K). apply (rsum_ext K). intros x _.
      apply (dn_hit1 l _ j _ (fun l' => _)).
    - apply (rsum_ext K). intros a2 _. rewrite map_app, rsum_app. f_equal.
      + destruct top; auto. rewrite PropVN2.map_flat_map, (rsum_flat_map K). apply (rsum_ext K). intros x _.
        rewrite map_app, rsum_app. f_equal; (destruct (Nat.eqb _ _); [|reflexivity]); apply (dn_hit1 l _ j _ (fun l' => _)).
      + destruct bottom; auto. rewrite PropVN2.map_flat_map, (rsum_flat_map K). apply (rsum_ext K). intros x _.
        rewrite map_app, rsum_app. f_equal; (destruct (Nat.eqb _ _); [|reflexivity]); apply (dn_hit1 l _ j _ (fun l' => _)). }
  rewrite rsum_plus.
  assert (RE : forall x y z w : K, x + z = 0 -> y + w = 0 -> x + (y + (z + w)) = 0).
  { intros x y z w H1 H2. replace (x + (y + (z + w))) with ((x + z) + (y + w)) by ring. rewrite H1, H2. ring. }
  apply RE; clear RE.
  - destruct top. { rewrite (rsum_0 K) by auto. ring. }
    rewrite (rsum_swap K), <- rsum_plus. apply (rsum_0 K). intros x _. rewrite rsum_plus.
    rewrite (pick_state c b1 (fun a2 => on _) Hb), (pick_state c a1 (fun a2 => on _) Ha). rewrite !ON. unfold dphi. rewrite up_zero.
    unfold on. destruct (l <? nl)%nat; auto. now destruct (Z.eqb _ j).
  - destruct bottom. { rewrite (rsum_0 K) by auto. ring. }
    rewrite (rsum_swap K), <- rsum_plus. apply (rsum_0 K). intros x _. rewrite rsum_plus.
    rewrite (pick_state c b1 (fun a2 => on _) Hb), (pick_state c a1 (fun a2 => on _) Ha). rewrite !ON. unfold dphi. rewrite down_zero.
    unfold on. destruct (l <? nl)%nat; auto. now destruct (Z.eqb _ j).
Qed.

Lemma dn_columns : forall l j,
  rsum (fun i => run_updates eq3 (map pu (dn_all K L nl E T pi F Fm ph)) zeros (l, (Z.of_nat i, j))) (seq 0 np) = 0.
Proof.
  intros l j. rewrite col_sum.
  - unfold dn_all. rewrite PropVN2.map_flat_map, (rsum_flat_map K). apply (rsum_0 K). intros c Hc.
    rewrite PropVN2.map_flat_map, (rsum_flat_map K). apply (rsum_0 K). intros b Hb.
    rewrite PropVN2.map_flat_map, (rsum_flat_map K). apply (rsum_0 K). intros bp Hbp.
    destruct (Nat.eqb b bp); auto. apply charges_in in Hc. apply dn_zero; split; auto; lia.
  - unfold dn_all. rewrite PropVN2.map_flat_map. apply all_flat. intros c Hc. rewrite PropVN2.map_flat_map. apply all_flat. intros b Hb.
    rewrite PropVN2.map_flat_map. apply all_flat. intros bp Hbp. destruct (Nat.eqb b bp); [constructor|].
    apply charges_in in Hc. apply dn_rows. lia.
Qed.
End Dn.

Lemma re_wdn_columns : forall l j, rsum (fun i => re_wdn (l, (Z.of_nat i, j))) (seq 0 np) = 0.
Proof.
  intros l j. apply (dn_columns fst); intros; unfold jump, stay1, stay2; cbn [fst]; ring.
Qed.
Lemma im_wdn_columns : forall l j, rsum (fun i => im_wdn (l, (Z.of_nat i, j))) (seq 0 np) = 0.
Proof.
  intros l j. apply (dn_columns snd); intros; unfold jump, stay1, stay2; cbn [snd]; ring.
Qed.

Lemma corr_zero : forall (w : nat * (Z * Z) -> K) (s : nat -> Z -> K) l j,
  (forall k, rsum (fun i => w (l, (Z.of_nat i, k))) (seq 0 np) = 0) ->
  rsum (fun i => rsum (fun m => rsum (fun k => col_at K L w l (Z.of_nat i) k * lnn k m) (seq 0 (n2 L)) * s m j) (seq 0 (n2 L))) (seq 0 np) = 0.
Proof.
  intros w s l j H. rewrite (rsum_swap K). apply (rsum_0 K). intros m _. rewrite rsum_mul_r.
  rewrite (rsum_swap K). rewrite (rsum_0 K); [ring|]. intros k _. rewrite rsum_mul_r. unfold col_at. rewrite rsum_plus, !H. ring.
Qed.
Lemma wcorr_columns : forall l j, rsum (fun i => wcorr (l, (Z.of_nat i, j))) (seq 0 np) = 0.
Proof.
  intros l j. unfold RTDK.wcorr. rewrite rsum_plus.
  rewrite (corr_zero re_wdn snd_im l j (re_wdn_columns l)), (corr_zero im_wdn snd_re l j (im_wdn_columns l)). ring.
Qed.

(** *** C41: every column of the kernel of every lead sums to zero *)
Theorem C41_columns : forall off_diag l j, rsum (fun i => wdd off_diag (l, (Z.of_nat i, j))) (seq 0 np) = 0.
Proof.
  intros off_diag l j. unfold RTDK.wdd. destruct off_diag; [|apply wdd0_columns].
  rewrite rsum_plus, wdd0_columns, wcorr_columns. ring.
Qed.

Lemma kern_leads : forall off_diag ij, rtd_kern off_diag ij = rsum (fun l => wdd off_diag (l, ij)) lds.
Proof.
  intros off_diag ij. unfold RTDK.rtd_kern, RTDK.wdd. destruct off_diag; [now rewrite rsum_plus|ring].
Qed.

(** the kernel the linear solver gets, in both shapes: its solutions are the stationary vectors of unit trace *)
Theorem C41_kernel : forall off_diag,
  (forall ij, rtd_kern off_diag ij = rsum (fun l => wdd off_diag (l, ij)) lds) /\
  (forall j, trace_column K L (rtd_kern off_diag) j = 0) /\
  (forall r x, (0 <= r < Z.of_nat np)%Z ->
     solves K np np (replace_row K (rtd_kern off_diag) r (norm_vec K L)) (set_entry K zeros r 1) x <->
     stationary K np (rtd_kern off_diag) x /\ trace_of K L x = 1) /\
  (forall x, solves K (S np) np (replace_row K (rtd_kern off_diag) (Z.of_nat np) (norm_vec K L)) (set_entry K zeros (Z.of_nat np) 1) x <->
     stationary K np (rtd_kern off_diag) x /\ trace_of K L x = 1).
Proof.
  intros off_diag.
  assert (TC : forall j, trace_column K L (rtd_kern off_diag) j = 0).
  { intros j. unfold trace_column.
    transitivity (rsum (fun l => rsum (fun i => wdd off_diag (l, (Z.of_nat i, Z.of_nat j))) (seq 0 np)) lds).
    - rewrite (rsum_swap K). apply (rsum_ext K). intros i _. apply kern_leads.
    - apply (rsum_0 K). intros l _. apply C41_columns. }
  split; [apply kern_leads|]. split; [exact TC|]. split.
  - intros r x Hr. apply (C31_row_replacement K n name si L Hn Hix SY); auto.
  - intros x. apply (C31_extra_row K n name si L Hn Hix SY); auto.
Qed.

(** ** The currents *)
(** the considered states with their charges, in the order of statesdm *)
Definition items : list (Z * nat) := flat_map (fun c => map (pair c) (states L c)) (charges L).
Lemma items_in : forall c b, In (c, b) items -> (0 <= c)%Z /\ In b (states L c).
Proof.
  intros c b H. unfold items in H. apply in_flat_map in H. destruct H as (c' & Hc & H). apply in_map_iff in H.
  destruct H as (b' & EQ & H). injection EQ as -> ->. apply charges_in in Hc. split; auto; lia.
Qed.
Lemma items_sum : forall g : Z -> nat -> K, rsum (fun x => g (fst x) (snd x)) items =
  rsum (fun c => rsum (fun b => g c b) (states L c)) (charges L).
Proof. intros g. unfold items. rewrite rsum_flat_map. apply (rsum_ext K). intros c _. now rewrite rsum_map. Qed.
Lemma items_number : map (fun x => ind0 L (snd x) (snd x) (fst x)) items = map Z.of_nat (seq 0 np).
Proof.
  rewrite <- (diag_order n name si L Hn Hix SY). unfold items, diag_list. rewrite PropVN2.map_flat_map.
  apply flat_map_ext. intros c. now rewrite map_map.
Qed.
Lemma items_length : length items = np.
Proof. pose proof (f_equal (@length Z) items_number) as H. now rewrite !map_length, seq_length in H. Qed.

Lemma dot_items : forall A (l : list A) (f : A -> Z) (g : A -> K) (w : Z -> K) k0,
  map f l = map Z.of_nat (seq k0 (length l)) ->
  rsum (fun k => nth k (map g l) 0 * w (Z.of_nat (k0 + k))) (seq 0 (length l)) = rsum (fun x => g x * w (f x)) l.
Proof.
  induction l as [|x l IH]; intros f g w k0 H; auto. cbn [List.length seq map rsum nth] in *.
  injection H as H0 H. rewrite H0, Nat.add_0_r. f_equal. rewrite <- (IH f g w (S k0) H). rewrite <- seq_shift, rsum_map.
  apply (rsum_ext K). intros k _. cbn [nth]. now rewrite Nat.add_succ_r.
Qed.
Lemma dotv_items : forall (v : list K) (g : Z * nat -> K) (w : Z -> K), v = map g items ->
  dotv K v w np = Some (rsum (fun c => rsum (fun b => g (c, b) * w (ind0 L b b c)) (states L c)) (charges L)).
Proof.
  intros v g w ->. unfold dotv. rewrite map_length, items_length, Nat.eqb_refl. f_equal.
  rewrite <- (items_sum (fun c b => g (c, b) * w (ind0 L b b c))).
  pose proof items_number as N. rewrite <- items_length in N |- *.
  rewrite (rsum_ext K _ (fun x : Z * nat => g (fst x, snd x) * w (ind0 L (snd x) (snd x) (fst x)))
     (fun x => g x * w ((fun y => ind0 L (snd y) (snd y) (fst y)) x))) by (intros [c b] _; reflexivity).
  exact (dot_items _ items _ g w 0 N).
Qed.

Lemma rnat2_eq : forall k, rnat2 K k = rnat K k.
Proof. induction k as [|k IH]; [reflexivity|]. cbn [rnat2]. rewrite IH. reflexivity. Qed.
Lemma ln_items : ln_list K L = map (fun x => (1 + 1) * rnat K (charge_of si (snd x))) items.
Proof.
  unfold ln_list, items. rewrite PropVN2.map_flat_map. apply flat_map_ext_in. intros c Hc. apply charges_in in Hc.
  assert (X : forall l, (forall b, In b l -> In b (states L c)) ->
     flat_map (fun a => if is_unique L a a c then [(1 + 1) * rnat2 K (Z.to_nat c)] else []) l =
     map (fun x => (1 + 1) * rnat K (charge_of si (snd x))) (map (pair c) l)).
  { induction l as [|b l IH]; intros H; auto. cbn [flat_map map]. rewrite IH by (intros; apply H; now right).
    specialize (H b (or_introl eq_refl)). destruct (lo_diag L LO b c) as (_ & U & _); [lia|auto|].
    unfold is_unique. rewrite U, rnat2_eq. cbn [app snd].
    now rewrite (system_charge n name si L Hn Hix SY c b) by (auto; lia). }
  apply X. auto.
Qed.

Lemma wdotv_act : forall w phi l i, wdotv K L w phi l i = act K np (fun ij => w (l, ij)) phi i.
Proof. reflexivity. Qed.

Definition electrons_of (b : nat) : K := rnat K (charge_of si b).

(** *** C41: the current of a lead counts the electrons its kernel brings to the dot; the currents of all leads together are the
    change of the number of electrons, and vanish in a stationary state *)
Theorem C41_current : forall off_diag phi, h + h = 1 ->
  (forall l, rtd_current off_diag phi l = Some (weighted_action K L np (fun ij => wdd off_diag (l, ij)) phi electrons_of)) /\
  rsum (fun l => weighted_action K L np (fun ij => wdd off_diag (l, ij)) phi electrons_of) lds =
    weighted_action K L np (rtd_kern off_diag) phi electrons_of /\
  (stationary K np (rtd_kern off_diag) phi ->
     rsum (fun l => match rtd_current off_diag phi l with Some x => x | None => 1 end) lds = 0).
Proof.
  intros off_diag phi Hh.
  assert (A : forall l, rtd_current off_diag phi l = Some (weighted_action K L np (fun ij => wdd off_diag (l, ij)) phi electrons_of)).
  { intros l. unfold RTDK.rtd_current. rewrite (dotv_items _ _ _ ln_items). cbn [option_map]. f_equal. unfold weighted_action.
    rewrite <- rsum_mul_l. apply (rsum_ext K). intros c _. rewrite <- rsum_mul_l. apply (rsum_ext K). intros b _.
    rewrite wdotv_act. unfold electrons_of. cbn [snd].
    transitivity ((h + h) * rnat K (charge_of si b) * act K np (fun ij => wdd off_diag (l, ij)) phi (ind0 L b b c)); [ring|].
    rewrite Hh. ring. }
  assert (B : forall w, rsum (fun l => weighted_action K L np (fun ij => wdd off_diag (l, ij)) phi w) lds =
    weighted_action K L np (rtd_kern off_diag) phi w).
  { intros w. unfold weighted_action. rewrite (rsum_swap K). apply (rsum_ext K). intros c _. rewrite (rsum_swap K).
    apply (rsum_ext K). intros b _. rewrite rsum_mul_l. f_equal. unfold act. rewrite (rsum_swap K). apply (rsum_ext K). intros j _.
    rewrite rsum_mul_r. f_equal. now rewrite kern_leads. }
  split; [exact A|]. split; [apply B|]. intros ST.
  transitivity (rsum (fun l => weighted_action K L np (fun ij => wdd off_diag (l, ij)) phi electrons_of) lds).
  { apply (rsum_ext K). intros l _. now rewrite A. }
  rewrite B. now apply (stationary_weighted K n name si L Hn Hix SY).
Qed.

(** ** The energy currents *)
Lemma gam2_sym : forall l lp a b, re (gam2 K ns T tl l lp a b) = re (gam2 K ns T tl lp l a b).
Proof.
  intros l lp a b. transitivity (re (conj (gam2 K ns T tl l lp a b))); [destruct (gam2 K ns T tl l lp a b); reflexivity|].
  f_equal. unfold gam2. rewrite rsum_conj. apply (rsum_ext (Cx K)). intros n1 _. rewrite !conj_mul, !conj_conj. ring.
Qed.
Lemma temps : forall a b,
  rsum (fun l => temp1 K nl ns E T tl pi ph phm l a b) lds = rsum (fun l => temp2 K nl ns E T tl pi ph phm l a b) lds.
Proof.
  intros a b. unfold temp1, temp2. rewrite !rsum_mul_r. f_equal.
  transitivity (rsum (fun l => rsum (fun lp => if negb (Nat.eqb lp l) then
     re (gam2 K ns T tl l lp a b) * (ph l (E b - E a) + phm l (E b - E a)) else 0) lds) lds).
  { apply (rsum_ext K). intros l _. unfold gam1, others. rewrite rsum_re, rsum_filter.
    transitivity (rsum (fun x => if negb (Nat.eqb x l) then re (gam2 K ns T tl l x a b) else 0) lds * (ph l (E b - E a) + phm l (E b - E a))); [ring|].
    rewrite <- rsum_mul_r. apply (rsum_ext K). intros lp _. destruct (negb _); ring. }
  rewrite (rsum_swap K). apply (rsum_ext K). intros lp _. unfold others. rewrite rsum_filter. apply (rsum_ext K). intros l _.
  rewrite Nat.eqb_sym. destruct (negb _); auto. rewrite gam2_sym. ring.
Qed.

Lemma lead_sum : forall i j (v : nat -> K) ij,
  rsum (fun l => rsum (fun u : upd K => if eq3 (l, (i, j)) (fst u) then snd u else 0) (flat_map (fun l' => [((l', ij), v l')]) lds)) lds =
  if eqZZ (i, j) ij then rsum v lds else 0.
Proof.
  intros i j v ij.
  transitivity (rsum (fun l => if eqZZ (i, j) ij then v l else 0) lds).
  - apply (rsum_ext K). intros l Hl. rewrite rsum_flat_map.
    transitivity (rsum (fun l' => if Nat.eqb l' l then (if eqZZ (i, j) ij then v l' else 0) else 0) lds).
    + apply (rsum_ext K). intros l' _. cbn [rsum fst snd]. destruct (eq3 _ _) as [e|e].
      * injection e as -> <-. rewrite Nat.eqb_refl. destruct (eqZZ _ _); [ring|congruence].
      * destruct (Nat.eqb_spec l' l) as [->|]; [|ring]. destruct (eqZZ _ _); [congruence|ring].
    + rewrite (rsum_if_nat K (fun l' => if eqZZ (i, j) ij then v l' else 0)); auto. apply seq_NoDup.
  - destruct (eqZZ (i, j) ij); auto. apply (rsum_0 K). auto.
Qed.
Lemma dd_lead_sum : forall i j (v : nat -> K) bb aa,
  rsum (fun l => rsum (fun u : upd K => if eq3 (l, (i, j)) (fst u) then snd u else 0) (flat_map (fun l' => set_dd K l' (v l') (v l') bb aa) lds)) lds =
  (if eqZZ (i, j) (bb, bb) then rsum v lds else 0) + (if eqZZ (i, j) (bb, aa) then rsum v lds else 0).
Proof.
  intros i j v bb aa. rewrite <- (lead_sum i j v (bb, bb)), <- (lead_sum i j v (bb, aa)), <- rsum_plus.
  apply (rsum_ext K). intros l _. rewrite !rsum_flat_map, <- rsum_plus. apply (rsum_ext K). intros l' _. unfold set_dd. cbn [rsum]. ring.
Qed.
Lemma erow_leads : forall (t t' : nat -> nat -> nat -> K) i j b c,
  (forall a d, rsum (fun l => t l a d) lds = rsum (fun l => t' l a d) lds) ->
  let S x := rsum (fun l => rsum (fun u : upd K => if eq3 (l, (i, j)) (fst u) then snd u else 0) (erow K L nl x b c)) lds in S t = S t'.
Proof.
  intros t t' i j b c H. cbv zeta. unfold erow.
  assert (Y : forall l0 l1 (f g : nat -> list (upd K)) (P : nat -> upd K -> K),
    rsum (fun l => rsum (P l) (flat_map f l0 ++ flat_map g l1)) lds =
    rsum (fun a => rsum (fun l => rsum (P l) (f a)) lds) l0 + rsum (fun a => rsum (fun l => rsum (P l) (g a)) lds) l1).
  { intros. rewrite (rsum_swap K _ _ _ l0), (rsum_swap K _ _ _ l1), <- rsum_plus. apply (rsum_ext K); intros; now rewrite rsum_app, !rsum_flat_map. }
  rewrite !Y. f_equal; apply (rsum_ext K); intros x _.
  - rewrite (dd_lead_sum i j (fun l => t l x b)), (dd_lead_sum i j (fun l => t' l x b)). now rewrite H.
  - rewrite (dd_lead_sum i j (fun l => t l b x)), (dd_lead_sum i j (fun l => t' l b x)). now rewrite H.
Qed.
(** summed over the leads the two energy kernels are the same matrix *)
Lemma we_leads : forall ij,
  rsum (fun l => we1 K L nl ns E T tl pi ph phm (l, ij)) lds = rsum (fun l => we2 K L nl ns E T tl pi ph phm (l, ij)) lds.
Proof.
  intros [i j].
  assert (X : forall t, rsum (fun l => run_updates eq3 (each_state L (erow K L nl t)) zeros (l, (i, j))) lds =
    rsum (fun c => rsum (fun b => rsum (fun l => rsum (fun u : upd K => if eq3 (l, (i, j)) (fst u) then snd u else 0) (erow K L nl t b c)) lds)
      (states L c)) (charges L)).
  { intros t. transitivity (rsum (fun l => rsum (fun c => rsum (fun b => rsum (fun u : upd K => if eq3 (l, (i, j)) (fst u) then snd u else 0)
       (erow K L nl t b c)) (states L c)) (charges L)) lds).
    - apply (rsum_ext K). intros l _. rewrite run_updates_sum, each_state_sum. unfold zeros. apply (Radd_0_l (rth K)).
    - rewrite (rsum_swap K). apply (rsum_ext K). intros c _. now rewrite (rsum_swap K). }
  unfold we1, we2. rewrite !X. apply (rsum_ext K). intros c _. apply (rsum_ext K). intros b _. apply erow_leads. apply temps.
Qed.

(** all states are considered, in the order of their indices *)
Definition all_in_order (nmany : nat) : Prop := flat_map (states L) (charges L) = seq 0 nmany.

(** *** C41: when all states are kept, the energy currents add up to the change of the energy of the dot *)
Definition total (f : nat -> option (option K)) : option K :=
  fold_right (fun l acc => match f l, acc with Some (Some x), Some y => Some (x + y) | _, _ => None end) (Some 0) lds.

Theorem C41_energy : forall off_diag phi nmany, h + h = 1 -> all_in_order nmany ->
  im_gamma K L nl ns T tl imgt = false ->
  total (rtd_energy_current off_diag nmany phi) = Some (weighted_action K L np (rtd_kern off_diag) phi E) /\
  (stationary K np (rtd_kern off_diag) phi -> total (rtd_energy_current off_diag nmany phi) = Some 0).
Proof.
  intros off_diag phi nmany Hh AL IG.
  set (part w l := rsum (fun i => wdotv K L w phi l (Z.of_nat i)) (seq 0 np)).
  set (W1 := we1 K L nl ns E T tl pi ph phm). set (W2 := we2 K L nl ns E T tl pi ph phm).
  assert (EI : map (fun b => (1 + 1) * E b) (seq 0 nmany) = map (fun x => (1 + 1) * E (snd x)) items).
  { rewrite <- AL. unfold items. rewrite !PropVN2.map_flat_map. apply flat_map_ext. intros c. now rewrite map_map. }
  assert (A : forall l, rtd_energy_current off_diag nmany phi l =
     Some (Some (weighted_action K L np (fun ij => wdd off_diag (l, ij)) phi E + (- h) * part W1 l + h * part W2 l))).
  { intros l. unfold RTDK.rtd_energy_current. rewrite (dotv_items _ _ _ EI), IG. do 2 f_equal. fold W1 W2. fold (part W1 l) (part W2 l).
    f_equal. f_equal. unfold weighted_action.
    rewrite <- rsum_mul_l. apply (rsum_ext K). intros c _. rewrite <- rsum_mul_l. apply (rsum_ext K). intros b _.
    rewrite wdotv_act. cbn [snd].
    transitivity ((h + h) * E b * act K np (fun ij => wdd off_diag (l, ij)) phi (ind0 L b b c)); [ring|].
    rewrite Hh. ring. }
  assert (S : total (rtd_energy_current off_diag nmany phi) =
    Some (rsum (fun l => weighted_action K L np (fun ij => wdd off_diag (l, ij)) phi E + (- h) * part W1 l + h * part W2 l) lds)).
  { unfold total. generalize lds. intros ls. induction ls as [|l ls IH]; auto. cbn [fold_right rsum]. now rewrite IH, A. }
  assert (PP : rsum (part W1) lds = rsum (part W2) lds).
  { assert (X : forall w, rsum (part w) lds = rsum (fun i => rsum (fun j => rsum (fun l => w (l, (Z.of_nat i, Z.of_nat j))) lds * phi (Z.of_nat j)) (seq 0 np)) (seq 0 np)).
    { intros w. unfold part. rewrite (rsum_swap K). apply (rsum_ext K). intros i _. unfold wdotv. rewrite (rsum_swap K).
      apply (rsum_ext K). intros j _. now rewrite rsum_mul_r. }
    rewrite !X. apply (rsum_ext K). intros i _. apply (rsum_ext K). intros j _. f_equal. apply we_leads. }
  assert (EN : total (rtd_energy_current off_diag nmany phi) = Some (weighted_action K L np (rtd_kern off_diag) phi E)).
  { rewrite S. f_equal. rewrite !rsum_plus, !rsum_mul_l, PP.
    transitivity (rsum (fun l => weighted_action K L np (fun ij => wdd off_diag (l, ij)) phi E) lds); [ring|].
    unfold weighted_action. rewrite (rsum_swap K). apply (rsum_ext K). intros c _. rewrite (rsum_swap K).
    apply (rsum_ext K). intros b _. rewrite rsum_mul_l. f_equal. unfold act. rewrite (rsum_swap K). apply (rsum_ext K). intros j _.
    rewrite rsum_mul_r. f_equal. now rewrite kern_leads. }
  split; auto. intros ST. rewrite EN. f_equal. now apply (stationary_weighted K n name si L Hn Hix SY).
Qed.
End C41.

(** all objects with the default states of 'charge' (or 'sz') indexing satisfy the condition of [C41_energy] *)
Theorem C41_fresh : forall n name si dm, 1 <= n -> ix_of name n = IxCharge \/ ix_of name n = IxSz ->
  call_init KDM n name = (si, dm) ->
  system n name si (lay_of dm) /\ all_in_order (lay_of dm) (2 ^ n) /\ ly_npauli (lay_of dm) = 2 ^ n.
Proof.
  intros n name si dm Hn Hix E.
  assert (R : reach KDM n name si dm) by now constructor.
  assert (NS : ix_of name n <> IxSsq) by (destruct Hix; congruence).
  assert (AL : all_in_order (lay_of dm) (2 ^ n)).
  { pose proof (reach_kind n name si dm Hn R) as (_ & HC). unfold all_in_order, charges. cbn [ly_ncharge lay_of]. rewrite HC.
    assert (ST : dm_statesdm dm = si_chargelst (si_init n name) ++ [[]]).
    { unfold call_init, call_use_all, set_statesdm in E. injection E as _ E.
      pose proof (dm_fields KDM (si_indexing (si_init n name)) (ind_qn (si_init n name)) (qn_ind (si_init n name))
        (si_ncharge (si_init n name)) (repeat 0 (si_nmany (si_init n name))) (si_chargelst (si_init n name) ++ [[]])) as F.
      rewrite E in F. tauto. }
    pose proof (construct_chargelst_perm n) as P. apply Permutation_length in P. rewrite seq_length in P.
    assert (CL : si_chargelst (si_init n name) = enum_from 0 (construct_chargelst n)).
    { unfold si_init. destruct Hix as [-> | ->]; reflexivity. }
    assert (LEN : length (construct_chargelst n) = n + 1) by (rewrite construct_chargelst_spec, map_length, seq_length; lia).
    transitivity (flat_map (fun c => nth c (enum_from 0 (construct_chargelst n)) []) (seq 0 (n + 1))).
    - rewrite flat_map_concat_map, map_map, <- flat_map_concat_map. apply flat_map_ext_in. intros c Hc. apply in_seq in Hc.
      rewrite states_nat. unfold considered. rewrite ST, CL. now rewrite app_nth1 by (rewrite enum_from_length; lia).
    - rewrite flat_map_concat_map.
      replace (n + 1) with (length (enum_from 0 (construct_chargelst n))) by (now rewrite enum_from_length).
      rewrite <- list_as_map_nth, concat_enum_from. f_equal. unfold flatten in P.
      rewrite <- P. symmetry. apply total_concat. }
  split; [now constructor|]. split; auto.
  pose proof (diag_order n name si (lay_of dm) Hn NS ltac:(now constructor)) as D.
  apply (f_equal (@length Z)) in D. rewrite map_length, seq_length in D. rewrite <- D. unfold diag_list.
  rewrite <- (seq_length (2 ^ n) 0), <- AL. generalize (charges (lay_of dm)). intros l.
  induction l as [|c l IH]; auto. cbn [flat_map]. now rewrite !app_length, map_length, IH.
Qed.

(** ** Examples *)
(** two levels, 'charge' indexing, two leads; arbitrary looking values everywhere *)
Definition r_E (b : nat) : QRing := qz (nth b [0; 1; 3; 7]%Z 0%Z).
Definition r_T (l a b : nat) : Cx QRing := QCx (1 + Z.of_nat l + Z.of_nat (a * b)) (Z.of_nat a - Z.of_nat b).
Definition r_pf (l cb : nat) (q : bool) : QRing := qz (1 + Z.of_nat (l + 2 * cb) + (if q then 3 else 0)).
Definition r_int (s p eta : Z) (x1 x2 x3 : QRing) (r0 r1 : nat) (b : bool) : Cx QRing :=
  QCx (s + p + 2 * eta + Z.of_nat r0) (if b then eta else 0%Z).
Definition r_F (s : Z) (l : nat) (x : QRing) : QRing := radd (qz (s + Z.of_nat l)) (rmul x x).
Definition no (_ : Cx QRing) : bool := false.
Definition yes (_ : Cx QRing) : bool := true.
Definition r_ln (k m : nat) : QRing := if Nat.eqb k m then qz 2 else qz 0.
Definition r_nd (k : nat) (j : Z) : QRing := qz (Z.of_nat k + j - 1).
Definition r_tl (l k : nat) : Cx QRing := QCx (Z.of_nat (2 + l + k)) 0.
Definition r_W := wdd QRing ex_L 2 r_E r_T r_pf (qz 3) (r_F 1) (r_F 2) (r_F 5) (r_int 1) (r_int 2) no no yes yes r_ln r_nd r_nd.
Definition r_kern := rtd_kern QRing ex_L 2 r_E r_T r_pf (qz 3) (r_F 1) (r_F 2) (r_F 5) (r_int 1) (r_int 2) no no yes yes r_ln r_nd r_nd.
Definition r_cur := rtd_current QRing ex_L 2 r_E r_T r_pf (qz 3) qhalf (r_F 1) (r_F 2) (r_F 5) (r_int 1) (r_int 2) no no yes yes r_ln r_nd r_nd.
Definition r_ecur := rtd_energy_current QRing ex_L 2 2 r_E r_T r_tl r_pf (qz 3) qhalf (r_F 1) (r_F 2) (r_F 5) (r_F 7) (r_int 1) (r_int 2)
  no no yes yes no r_ln r_nd r_nd.
Definition r_phi (k : Z) : QRing := qz (nth (Z.to_nat k) [819043105021; -817389452017; -824381564577; 823004835141]%Z 0%Z).
Definition num (x : QRing) : Z := Qnum (Qcanon.this x).
Definition table (w : Z * Z -> QRing) : list (list Z) := map (fun i => map (fun j => num (w (i, j))) [0; 1; 2; 3]%Z) [0; 1; 2; 3]%Z.

Example C41_case :
  table (fun ij => r_W false (0, ij)) =
    [[-5216; -1432; -2690; 1080]; [-2329; -3781; -5684; -7118]; [-4655; -4796; -16241; -16356]; [12200; 10009; 24615; 22394]]%Z /\
  table (r_kern true) =
    [[-5932; 1553; 4275; 11728]; [20971; -824; -39796; -61551]; [-993; -16350; -30354; -45655]; [-14046; 15621; 65875; 95478]]%Z.
Proof. split; vm_compute; reflexivity. Qed.
(** a stationary vector of that kernel, and the currents in it *)
Lemma q_eqb_eq : forall x y : QRing, Qeq_bool (Qcanon.this x) (Qcanon.this y) = true -> x = y.
Proof. intros x y H. apply Qcanon.Qc_is_canon. now apply Qeq_bool_iff. Qed.
Example C41_stationary_case : stationary QRing 4 (r_kern true) r_phi /\ ly_npauli ex_L = 4%nat.
Proof.
  split; [|reflexivity]. intros i Hi. apply q_eqb_eq.
  do 4 (destruct i as [|i]; [vm_compute; reflexivity|]). lia.
Qed.
Example C41_current_case :
  map (fun l => option_map num (r_cur true r_phi l)) [0; 1]%nat = [Some (-7425574933272); Some 7425574933272]%Z.
Proof. vm_compute. reflexivity. Qed.
Example C41_energy_case : all_in_order ex_L 4 /\ im_gamma QRing ex_L 2 2 r_T r_tl no = false /\
  map (fun l => option_map (option_map num) (r_ecur true 4 r_phi l)) [0; 1]%nat = [Some (Some 19895052091414); Some (Some (-19895052091414))]%Z.
Proof. split; [reflexivity|]. split; vm_compute; reflexivity. Qed.

(** ** Where the energy current cannot be computed *)
(** LE is 2*qd.Ea, one entry per many-body state; the kernel has one row per considered state *)
Theorem C41_energy_raises : forall K L nl ns E T tl pf pi h F Fm ph phm intD intX is0 lt2 gt3 imgt3 imgt lnn snd_im snd_re off_diag nmany phi l,
  nmany <> ly_npauli L ->
  rtd_energy_current K L nl ns E T tl pf pi h F Fm ph phm intD intX is0 lt2 gt3 imgt3 imgt lnn snd_im snd_re off_diag nmany phi l = None.
Proof.
  intros. unfold rtd_energy_current, dotv. rewrite map_length, seq_length. destruct (Nat.eqb_spec nmany (ly_npauli L)); congruence.
Qed.
(** so after remove_states the solution with currents raises, although the kernel and the charge current are fine: keeping the
    states 0, 2, 3 of two levels *)
Theorem C41_energy_refuted : exists si L, system 2 "charge" si L /\ si_nmany si = 4%nat /\
  flat_map (states L) (charges L) = [0; 2; 3]%nat /\
  (forall K nl E T pf pi h F Fm ph intD intX is0 lt2 gt3 imgt3 lnn snd_im snd_re off_diag phi l,
     rtd_current K L nl E T pf pi h F Fm ph intD intX is0 lt2 gt3 imgt3 lnn snd_im snd_re off_diag phi l <> None) /\
  (forall K nl ns E T tl pf pi h F Fm ph phm intD intX is0 lt2 gt3 imgt3 imgt lnn snd_im snd_re off_diag phi l,
     rtd_energy_current K L nl ns E T tl pf pi h F Fm ph phm intD intX is0 lt2 gt3 imgt3 imgt lnn snd_im snd_re off_diag
       (si_nmany si) phi l = None).
Proof.
  exists ex_si, (lay_of (snd c45_sel)).
  assert (R : reach KDM 2 "charge" ex_si (snd c45_sel)).
  { destruct (C39_history KDM 2 "charge" [] (SRemove [0; 5; 1; 2]%Q 3%Q) ex_si ex_dm) as (si' & dm' & S1 & S2 & _).
    - lia.
    - apply reach_init. reflexivity.
    - vm_compute. lia.
    - repeat constructor.
    - cbn [app sel_run sel_step] in S1. unfold c45_sel. destruct (call_remove_states KDM ex_dm ex_si [0; 5; 1; 2]%Q 3%Q) as [[si2 dm2]|] eqn:EC; [|discriminate].
      injection S1 as -> ->. assert (E : si' = ex_si).
      { unfold call_remove_states in EC. destruct (min_energy _); [|discriminate]. unfold call_set in EC. congruence. }
      subst. exact S2. }
  assert (NM : si_nmany ex_si = 4%nat) by reflexivity.
  split; [now constructor|]. split; auto. split; [vm_compute; reflexivity|]. split.
  - intros. unfold rtd_current. intros X. assert (LN : length (ln_list K (lay_of (snd c45_sel))) = ly_npauli (lay_of (snd c45_sel))) by reflexivity.
    unfold dotv in X. rewrite LN, Nat.eqb_refl in X. discriminate.
  - intros. apply C41_energy_raises. rewrite NM. vm_compute. discriminate.
Qed.
Print Assumptions C41_columns.
Print Assumptions C41_kernel.
Print Assumptions C41_current.
Print Assumptions C41_energy.
Print Assumptions C41_fresh.
Print Assumptions C41_energy_raises.
Print Assumptions C41_energy_refuted.
