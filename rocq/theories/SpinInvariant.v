(** Which products of fermion operators commute with the total spin: the commutators with S^+ and S^-, and the invariant
    one- and two-electron operators.  Specification side of C54, independent of the modelled code. *)
From Coq Require Import String ZArith List Arith Lia Bool.
From Verif Require Import Base CRing Fock SpinFock.
Import ListNotations.
Open Scope nat_scope.
Local Notation length := List.length.

Section Invariant.
Variable K : CRing.
Add Ring Kinv : (rth K).
Local Open Scope rng_scope.
Variable h : nat.
Local Notation lett := (bool * nat)%type.
Local Notation two := (two K).

(** ** derivations: [L, x] is a multiple of one letter *)
Section Derivation.
Variable L : op K.
Variable der : lett -> option (K * lett).
Hypothesis L_ext : forall u v s, (forall t, length t = length s -> u t = v t) -> L u s = L v s.
Hypothesis L_lin : forall c u s, L (fun t => c * u t) s = c * L u s.
Hypothesis L_plus : forall u v s, L (fun t => u t + v t) s = L u s + L v s.
Hypothesis L_letter : forall x f s, length s = (h + h)%nat -> (snd x < h + h)%nat ->
  L (letter K x f) s = letter K x (L f) s + match der x with Some (c, y) => c * letter K y f s | None => 0 end.

Fixpoint leib (w : list lett) : list (K * list lett) :=
  match w with
  | [] => []
  | x :: w' => (match der x with Some (c, y) => [(c, y :: w')] | None => [] end) ++ map (fun e => (fst e, x :: snd e)) (leib w')
  end.
Definition comb (l : list (K * list lett)) : op K := fun f s => rsum (fun e => fst e * word K (snd e) f s) l.
Lemma letter_plus : forall x u v s, letter K x (fun t => u t + v t) s = letter K x u s + letter K x v s.
Proof. intros [[|] i] u v s; unfold letter; cbn [fst snd]; unfold cre, ann; destruct (occ_at i s); ring. Qed.
Lemma letter_comb : forall x l f s, letter K x (comb l f) s = comb (map (fun e => (fst e, x :: snd e)) l) f s.
Proof.
  intros x l f s. unfold comb. rewrite letter_rsum, rsum_map. apply rsum_ext. intros [c w] _. cbn [fst snd]. apply letter_lin.
Qed.
Lemma leib_word : forall w f s, length s = (h + h)%nat -> (forall x, In x w -> (snd x < h + h)%nat) ->
  L (word K w f) s = word K w (L f) s + comb (leib w) f s.
Proof.
  induction w as [|x w IH]; intros f s Ls Hw.
  - cbn. unfold comb, oid. cbn. ring.
  - cbn [word leib]. unfold ocomp. rewrite L_letter by (auto; apply Hw; now left).
    rewrite (letter_ext K x (L (word K w f)) (fun t => word K w (L f) t + comb (leib w) f t)).
    + rewrite letter_plus, letter_comb. unfold comb at 2. rewrite rsum_app. fold (comb (map (fun e => (fst e, x :: snd e)) (leib w)) f s).
      destruct (der x) as [[c y]|]; cbn [rsum fst snd word]; unfold ocomp; ring.
    + intros t Lt. apply IH; [congruence|]. intros y Hy. apply Hw. now right.
Qed.
Definition commutes (A : op K) : Prop := forall f s, length s = (h + h)%nat -> L (A f) s = A (L f) s.
Lemma commutes_plus : forall A B, commutes A -> commutes B -> commutes (oplus K A B).
Proof. intros A B HA HB f s Ls. unfold oplus. rewrite L_plus. now rewrite HA, HB. Qed.
Lemma commutes_scale : forall c A, commutes A -> commutes (oscale K c A).
Proof. intros c A HA f s Ls. unfold oscale. rewrite L_lin. now rewrite HA. Qed.
Lemma L_zero : forall s, L (fun _ => 0) s = 0.
Proof. intros s. rewrite (L_ext _ (fun t => 0 * 0)) by (intros; ring). rewrite L_lin. ring. Qed.
Lemma commutes_zero : commutes (ozero K).
Proof. intros f s Ls. unfold ozero. apply L_zero. Qed.
Lemma commutes_sum : forall A (F : A -> op K) l, (forall x, In x l -> commutes (F x)) -> commutes (osum K F l).
Proof.
  intros A F. induction l as [|x l IH]; intros H; cbn [osum]; [apply commutes_zero|].
  apply commutes_plus; [apply H; now left|]. apply IH. intros y Hy. apply H. now right.
Qed.
Lemma commutes_ext : forall A B, (forall f s, length s = (h + h)%nat -> A f s = B f s) -> commutes A -> commutes B.
Proof.
  intros A B E HA f s Ls. rewrite <- E by auto. rewrite <- HA by auto. apply L_ext. intros t Lt. symmetry. apply E. congruence.
Qed.
Lemma commutes_comb : forall l, (forall e x, In e l -> In x (snd e) -> (snd x < h + h)%nat) ->
  (forall f s, length s = (h + h)%nat -> rsum (fun e => fst e * comb (leib (snd e)) f s) l = 0) -> commutes (comb l).
Proof.
  intros l Hl H f s Ls. unfold comb.
  assert (G : forall l, L (fun t => rsum (fun e => fst e * word K (snd e) f t) l) s = rsum (fun e => fst e * L (word K (snd e) f) s) l).
  { clear - L_ext L_lin L_plus. induction l as [|e l IH]; cbn [rsum]; [apply L_zero|]. rewrite L_plus, IH. now rewrite L_lin. }
  rewrite G. rewrite (rsum_ext K _ _ (fun e => fst e * word K (snd e) (L f) s + fst e * comb (leib (snd e)) f s)).
  - rewrite rsum_plus, H by auto. ring.
  - intros e He. rewrite leib_word; auto; [ring|]. intros x Hx. now apply (Hl e).
Qed.
End Derivation.

(** ** the commutators with 2 S^+ and 2 S^- *)
Definition der_raise (x : lett) : option (K * lett) :=
  match x with
  | (true, p) => if Nat.ltb p h then None else Some (two, (true, p - h)%nat)
  | (false, p) => if Nat.ltb p h then Some (- two, (false, p + h)%nat) else None
  end.
Definition der_lower (x : lett) : option (K * lett) :=
  match x with
  | (true, p) => if Nat.ltb p h then Some (two, (true, p + h)%nat) else None
  | (false, p) => if Nat.ltb p h then None else Some (- two, (false, p - h)%nat)
  end.

Lemma hop_cre : forall g e p f s, (g < length s)%nat -> (e < length s)%nat -> (p < length s)%nat ->
  hop K g e (cre K p f) s = cre K p (hop K g e f) s + (if Nat.eqb e p then cre K g f s else 0).
Proof.
  intros g e p f s Hg He Hp. unfold hop, ocomp.
  rewrite (cre_ext K g _ (fun t => (if Nat.eqb e p then 1 else 0) * f t - cre K p (ann K e f) t)).
  - rewrite cre_split. rewrite (anti_cre K g p) by auto. destruct (Nat.eqb e p); ring.
  - intros t Lt. rewrite anti_mixed by lia. destruct (Nat.eqb e p); ring.
Qed.
Lemma ann_split : forall i a b f s, ann K i (fun t => a * f t - b t) s = a * ann K i f s - ann K i b s.
Proof. intros. unfold ann. destruct (occ_at i s); ring. Qed.
Lemma hop_ann : forall g e p f s, (g < length s)%nat -> (e < length s)%nat -> (p < length s)%nat ->
  hop K g e (ann K p f) s = ann K p (hop K g e f) s - (if Nat.eqb g p then ann K e f s else 0).
Proof.
  intros g e p f s Hg He Hp. unfold hop, ocomp.
  rewrite (cre_ext K g _ (fun t => (- (1)) * ann K p (ann K e f) t)).
  - rewrite cre_lin. rewrite (anti_mixed K p g) by auto. rewrite (Nat.eqb_sym p g). destruct (Nat.eqb g p); ring.
  - intros t Lt. rewrite anti_ann by lia. ring.
Qed.
Section LadderLinear.
Variables from to : nat -> nat.
Lemma ladder_lin : forall c u s, ladder K h from to (fun t => c * u t) s = c * ladder K h from to u s.
Proof. intros. rewrite !ladder_sum, <- rsum_mul_l. apply rsum_ext. intros j _. rewrite hop_lin. ring. Qed.
Lemma ladder_plus : forall u v s, ladder K h from to (fun t => u t + v t) s = ladder K h from to u s + ladder K h from to v s.
Proof.
  intros. rewrite !ladder_sum, <- rsum_plus. apply rsum_ext. intros j _. unfold hop, ocomp.
  unfold cre, ann. destruct (occ_at (to j) s), (occ_at (from j) (put (to j) false s)); ring.
Qed.
Lemma letter_ladder : forall x f s, letter K x (ladder K h from to f) s = rsum (fun j => two * letter K x (hop K (to j) (from j) f) s) (seq 0 h).
Proof.
  intros x f s. rewrite (letter_ext K x _ (fun t => rsum (fun j => two * hop K (to j) (from j) f t) (seq 0 h))) by (intros; apply ladder_sum).
  rewrite letter_rsum. apply rsum_ext. intros j _. apply letter_lin.
Qed.
Hypothesis BND : forall j, (j < h)%nat -> (from j < h + h /\ to j < h + h)%nat.
Lemma ladder_letter : forall b p f s, length s = (h + h)%nat -> (p < h + h)%nat ->
  ladder K h from to (letter K (b, p) f) s = letter K (b, p) (ladder K h from to f) s +
    rsum (fun j => if Nat.eqb p ((if b then from else to) j) then (if b then two else - two) * letter K (b, (if b then to else from) j) f s else 0) (seq 0 h).
Proof.
  intros b p f s Ls Hp. rewrite ladder_sum, letter_ladder, <- rsum_plus. apply rsum_ext. intros j Hj. apply in_seq in Hj.
  destruct (BND j ltac:(lia)) as [B1 B2]. destruct b; unfold letter; cbn [fst snd].
  - rewrite hop_cre by lia. rewrite (Nat.eqb_sym p). destruct (Nat.eqb (from j) p); ring.
  - rewrite hop_ann by lia. rewrite (Nat.eqb_sym p). destruct (Nat.eqb (to j) p); ring.
Qed.
End LadderLinear.
Lemma pick_low : forall p (F : nat -> K), rsum (fun j => if Nat.eqb p j then F j else 0) (seq 0 h) = if Nat.ltb p h then F p else 0.
Proof.
  intros p F. destruct (Nat.ltb_spec p h).
  - rewrite (rsum_single K _ _ (seq 0 h) p); [now rewrite Nat.eqb_refl|apply seq_NoDup|apply in_seq; lia|].
    intros j _ Hj. destruct (Nat.eqb_spec p j); congruence.
  - apply rsum_0. intros j Hj. apply in_seq in Hj. destruct (Nat.eqb_spec p j); [lia|auto].
Qed.
Lemma pick_high : forall p (F : nat -> K), (p < h + h)%nat -> rsum (fun j => if Nat.eqb p (h + j) then F j else 0) (seq 0 h) = if Nat.ltb p h then 0 else F (p - h)%nat.
Proof.
  intros p F Hp. destruct (Nat.ltb_spec p h).
  - apply rsum_0. intros j Hj. apply in_seq in Hj. destruct (Nat.eqb_spec p (h + j)); [lia|auto].
  - rewrite (rsum_single K _ _ (seq 0 h) (p - h)%nat); [|apply seq_NoDup|apply in_seq; lia|].
    + destruct (Nat.eqb_spec p (h + (p - h))); [auto|lia].
    + intros j _ Hj. destruct (Nat.eqb_spec p (h + j)); [lia|auto].
Qed.
Lemma raise_letter : forall x f s, length s = (h + h)%nat -> (snd x < h + h)%nat ->
  spin_raise K h (letter K x f) s = letter K x (spin_raise K h f) s + match der_raise x with Some (c, y) => c * letter K y f s | None => 0 end.
Proof.
  intros [b p] f s Ls Hp. cbn [snd] in Hp. rewrite spin_raise_ladder. rewrite ladder_letter by (auto; intros; lia). f_equal.
  destruct b; cbn [der_raise].
  - rewrite (pick_high p (fun j => two * letter K (true, j) f s) Hp). destruct (Nat.ltb p h); reflexivity.
  - rewrite (pick_low p (fun j => - two * letter K (false, (h + j)%nat) f s)). destruct (Nat.ltb p h); auto. now rewrite (Nat.add_comm h p).
Qed.
Lemma lower_letter : forall x f s, length s = (h + h)%nat -> (snd x < h + h)%nat ->
  spin_lower K h (letter K x f) s = letter K x (spin_lower K h f) s + match der_lower x with Some (c, y) => c * letter K y f s | None => 0 end.
Proof.
  intros [b p] f s Ls Hp. cbn [snd] in Hp. rewrite spin_lower_ladder. rewrite ladder_letter by (auto; intros; lia). f_equal.
  destruct b; cbn [der_lower].
  - rewrite (pick_low p (fun j => two * letter K (true, (h + j)%nat) f s)). destruct (Nat.ltb p h); auto. now rewrite (Nat.add_comm h p).
  - rewrite (pick_high p (fun j => - two * letter K (false, j) f s) Hp). destruct (Nat.ltb p h); reflexivity.
Qed.

(** ** invariance: commuting with both *)
Definition invariant (A : op K) : Prop := forall f s, length s = (h + h)%nat ->
  spin_raise K h (A f) s = A (spin_raise K h f) s /\ spin_lower K h (A f) s = A (spin_lower K h f) s.
Lemma invariant_split : forall A, invariant A <-> commutes (spin_raise K h) A /\ commutes (spin_lower K h) A.
Proof. intros A. split; [intros H; split; intros f s Ls; now apply H|intros (H1 & H2) f s Ls; split; auto]. Qed.
Lemma raise_ext : forall u v s, (forall t, length t = length s -> u t = v t) -> spin_raise K h u s = spin_raise K h v s.
Proof. intros. rewrite spin_raise_ladder. now apply ladder_ext. Qed.
Lemma lower_ext : forall u v s, (forall t, length t = length s -> u t = v t) -> spin_lower K h u s = spin_lower K h v s.
Proof. intros. rewrite spin_lower_ladder. now apply ladder_ext. Qed.
Lemma raise_lin : forall c u s, spin_raise K h (fun t => c * u t) s = c * spin_raise K h u s.
Proof. intros. rewrite spin_raise_ladder. apply ladder_lin. Qed.
Lemma lower_lin : forall c u s, spin_lower K h (fun t => c * u t) s = c * spin_lower K h u s.
Proof. intros. rewrite spin_lower_ladder. apply ladder_lin. Qed.
Lemma raise_plus : forall u v s, spin_raise K h (fun t => u t + v t) s = spin_raise K h u s + spin_raise K h v s.
Proof. intros. rewrite spin_raise_ladder. apply ladder_plus. Qed.
Lemma lower_plus : forall u v s, spin_lower K h (fun t => u t + v t) s = spin_lower K h u s + spin_lower K h v s.
Proof. intros. rewrite spin_lower_ladder. apply ladder_plus. Qed.
Lemma invariant_plus : forall A B, invariant A -> invariant B -> invariant (oplus K A B).
Proof.
  intros A B HA HB. apply invariant_split in HA, HB. apply invariant_split.
  split; apply commutes_plus; try tauto; [apply raise_plus|apply lower_plus].
Qed.
Lemma invariant_scale : forall c A, invariant A -> invariant (oscale K c A).
Proof.
  intros c A HA. apply invariant_split in HA. apply invariant_split. split; apply commutes_scale; try tauto; [apply raise_lin|apply lower_lin].
Qed.
Lemma invariant_zero : invariant (ozero K).
Proof.
  apply invariant_split. split; apply commutes_zero; [apply raise_ext|apply raise_lin|apply lower_ext|apply lower_lin].
Qed.
Lemma invariant_sum : forall A (F : A -> op K) l, (forall x, In x l -> invariant (F x)) -> invariant (osum K F l).
Proof.
  intros A F. induction l as [|x l IH]; intros H; cbn [osum]; [apply invariant_zero|].
  apply invariant_plus; [apply H; now left|]. apply IH. intros y Hy. apply H. now right.
Qed.
Lemma invariant_ext : forall A B, (forall f s, length s = (h + h)%nat -> A f s = B f s) -> invariant A -> invariant B.
Proof.
  intros A B E HA. apply invariant_split in HA. apply invariant_split.
  split; [apply (commutes_ext _ raise_ext A)|apply (commutes_ext _ lower_ext A)]; tauto.
Qed.
Lemma invariant_comb : forall l, (forall e x, In e l -> In x (snd e) -> (snd x < h + h)%nat) ->
  (forall f s, length s = (h + h)%nat -> rsum (fun e => fst e * comb (leib der_raise (snd e)) f s) l = 0) ->
  (forall f s, length s = (h + h)%nat -> rsum (fun e => fst e * comb (leib der_lower (snd e)) f s) l = 0) -> invariant (comb l).
Proof.
  intros l Hl H1 H2. apply invariant_split. split.
  - apply (commutes_comb _ der_raise); auto; [apply raise_ext|apply raise_lin|apply raise_plus|apply raise_letter].
  - apply (commutes_comb _ der_lower); auto; [apply lower_ext|apply lower_lin|apply lower_plus|apply lower_letter].
Qed.

(** the commutator of a letter of an orbital, spin up or down *)
Lemma dr : forall p, (p < h)%nat -> der_raise (true, p) = None /\ der_raise (false, p) = Some (- two, (false, p + h)%nat) /\
  der_raise (true, p + h)%nat = Some (two, (true, p)) /\ der_raise (false, p + h)%nat = None.
Proof.
  intros p Hp. unfold der_raise. rewrite (proj2 (Nat.ltb_lt p h)), (proj2 (Nat.ltb_ge (p + h) h)) by lia.
  replace (p + h - h)%nat with p by lia. auto.
Qed.
Lemma dl : forall p, (p < h)%nat -> der_lower (true, p) = Some (two, (true, p + h)%nat) /\ der_lower (false, p) = None /\
  der_lower (true, p + h)%nat = None /\ der_lower (false, p + h)%nat = Some (- two, (false, p)).
Proof.
  intros p Hp. unfold der_lower. rewrite (proj2 (Nat.ltb_lt p h)), (proj2 (Nat.ltb_ge (p + h) h)) by lia.
  replace (p + h - h)%nat with p by lia. auto.
Qed.
Ltac ders := repeat match goal with
  | H : (?p < h)%nat |- context [der_raise (?b, ?p)] => destruct (dr p H) as (?R1 & ?R2 & ?R3 & ?R4); rewrite ?R1, ?R2, ?R3, ?R4; clear R1 R2 R3 R4
  | H : (?p < h)%nat |- context [der_raise (?b, ?p + h)%nat] => destruct (dr p H) as (?R1 & ?R2 & ?R3 & ?R4); rewrite ?R1, ?R2, ?R3, ?R4; clear R1 R2 R3 R4
  | H : (?p < h)%nat |- context [der_lower (?b, ?p)] => destruct (dl p H) as (?R1 & ?R2 & ?R3 & ?R4); rewrite ?R1, ?R2, ?R3, ?R4; clear R1 R2 R3 R4
  | H : (?p < h)%nat |- context [der_lower (?b, ?p + h)%nat] => destruct (dl p H) as (?R1 & ?R2 & ?R3 & ?R4); rewrite ?R1, ?R2, ?R3, ?R4; clear R1 R2 R3 R4
  end.
Ltac small := let e := fresh in let x := fresh in let H := fresh in let H' := fresh in
  intros e x H H'; cbn [In] in H; repeat match goal with H : _ \/ _ |- _ => destruct H as [H|H] end; try contradiction; subst e; cbn [snd In] in H';
  repeat match goal with H : _ \/ _ |- _ => destruct H as [H|H] end; try contradiction; subst x; cbn [snd]; lia.
Ltac leibniz := intros f s Ls; unfold comb; cbn [rsum fst snd leib]; ders; cbn [app map rsum fst snd].

Definition W2 (i j : nat) : op K := word K [(true, i); (false, j)].
Definition W4 (m n k l : nat) : op K := word K [(true, m); (true, n); (false, k); (false, l)].
Theorem invariant_hop : forall i j, (i < h)%nat -> (j < h)%nat -> invariant (oplus K (W2 i j) (W2 (i + h) (j + h))).
Proof.
  intros i j Hi Hj. apply (invariant_ext (comb [(1, [(true, i); (false, j)]); (1, [(true, (i + h)%nat); (false, (j + h)%nat)])])).
  - intros f s _. unfold comb, oplus, W2. cbn [rsum fst snd]. ring.
  - apply invariant_comb; [small| |]; leibniz; ring.
Qed.
(** sum over the spins of c^+_(m,s) c^+_(n,t) c_(k,t) c_(l,s) *)
Definition Q4 (m n k l : nat) : op K := oplus K (oplus K (W4 m n k l) (W4 (m + h) (n + h) (k + h) (l + h)))
  (oplus K (W4 m (n + h) (k + h) l) (W4 (m + h) n k (l + h))).
Theorem invariant_quad : forall m n k l, (m < h)%nat -> (n < h)%nat -> (k < h)%nat -> (l < h)%nat -> invariant (Q4 m n k l).
Proof.
  intros m n k l Hm Hn Hk Hl.
  apply (invariant_ext (comb [(1, [(true, m); (true, n); (false, k); (false, l)]); (1, [(true, (m + h)%nat); (true, (n + h)%nat); (false, (k + h)%nat); (false, (l + h)%nat)]);
    (1, [(true, m); (true, (n + h)%nat); (false, (k + h)%nat); (false, l)]); (1, [(true, (m + h)%nat); (true, n); (false, k); (false, (l + h)%nat)])])).
  - intros f s _. unfold comb, Q4, oplus, W4. cbn [rsum fst snd]. ring.
  - apply invariant_comb; [small| |]; leibniz; ring.
Qed.
Lemma cre_cre : forall i f s, (i < length s)%nat -> cre K i (cre K i f) s = 0.
Proof. intros i f s Hi. unfold cre. destruct (occ_at i s); auto. rewrite occ_put_same by auto. ring. Qed.
Lemma ann_ann : forall i f s, (i < length s)%nat -> ann K i (ann K i f) s = 0.
Proof. intros i f s Hi. unfold ann. destruct (occ_at i s); auto. rewrite occ_put_same by auto. ring. Qed.
Lemma W4_cc : forall m k l f s, (m < length s)%nat -> W4 m m k l f s = 0.
Proof. intros. unfold W4. cbn [word]. unfold ocomp, letter. cbn [fst snd]. now apply cre_cre. Qed.
Lemma W4_aa : forall m n k f s, (k < length s)%nat -> W4 m n k k f s = 0.
Proof.
  intros. unfold W4. cbn [word]. unfold ocomp, letter. cbn [fst snd]. apply cre_on0. intros u Lu. apply cre_on0. intros v Lv.
  apply (ann_ann k). lia.
Qed.
Lemma W4_same : forall m n k l f s, (m < length s)%nat -> (n < length s)%nat -> (k < length s)%nat -> (l < length s)%nat ->
  W4 n m l k f s = W4 m n k l f s.
Proof.
  intros m n k l f s Hm Hn Hk Hl. unfold W4. cbn [word]. unfold ocomp, letter, oid. cbn [fst snd]. rewrite anti_cre by auto.
  rewrite (cre_ext K m _ (fun t => (- (1)) * cre K n (ann K k (ann K l f)) t)); [rewrite cre_lin; ring|].
  intros t Lt. rewrite (cre_ext K n _ (fun u => (- (1)) * ann K k (ann K l f) u)); [now rewrite cre_lin|].
  intros u Lu. rewrite anti_ann by lia. ring.
Qed.
(** a pair of opposite spins moves from one orbital to another *)
Theorem invariant_pair : forall m k, (m < h)%nat -> (k < h)%nat -> invariant (W4 m (m + h) (k + h) k).
Proof.
  intros m k Hm Hk. apply (invariant_ext (comb [(1, [(true, m); (true, (m + h)%nat); (false, (k + h)%nat); (false, k)])])).
  - intros f s _. unfold comb. cbn [rsum fst snd]. unfold W4. ring.
  - assert (Z : forall a b c d f s, length s = (h + h)%nat -> (a < h + h)%nat -> (c < h + h)%nat -> (a = b \/ c = d) ->
       word K [(true, a); (true, b); (false, c); (false, d)] f s = 0).
    { intros a b c d f s Ls Ha Hc [<-|<-]; [apply (W4_cc a); lia|apply (W4_aa a b c); lia]. }
    apply invariant_comb; [small| |]; leibniz; rewrite !Z by (auto; lia); ring.
Qed.
End Invariant.
