(** C44: add and change act on exactly the named leads and on their spin partners. *)
From Coq Require Import List Arith Lia Bool ZArith.
From Verif Require Import Base CRing LeadParams.
Import ListNotations.
Open Scope nat_scope.

(** *** what a caller names: key j names lead i if j = i or, counting from the end, j = i - npar; the last item counts *)
Definition names (npar : nat) (i : nat) (j : Z) : bool := ((j =? Z.of_nat i) || (j =? Z.of_nat i - Z.of_nat npar))%Z%bool.
Definition item_for {A} (npar : nat) (d : list (Z * A)) (i : nat) : option A :=
  option_map snd (find (fun e => names npar i (fst e)) (rev d)).
Definition key_ok (npar : nat) (j : Z) : Prop := (- Z.of_nat npar <= j < Z.of_nat npar)%Z.

Lemma py_index_names : forall n j, key_ok n j -> exists i, py_index n j = Some i /\ i < n /\ forall i', i' < n -> (names n i' j = true <-> i' = i).
Proof.
  intros n j H. unfold key_ok in H. unfold py_index. destruct (Z.leb_spec 0 j).
  - destruct (Z.ltb_spec j (Z.of_nat n)); [|lia]. exists (Z.to_nat j). split; auto. split; [lia|]. intros i' Hi. unfold names.
    rewrite Bool.orb_true_iff, !Z.eqb_eq. lia.
  - destruct (Z.leb_spec 0 (j + Z.of_nat n)); [|lia]. eexists. split; [reflexivity|]. split; [lia|]. intros i' Hi. unfold names.
    rewrite Bool.orb_true_iff, !Z.eqb_eq. lia.
Qed.

Lemma item_for_cons : forall A npar j (v : A) d i, item_for npar ((j, v) :: d) i =
  match item_for npar d i with Some w => Some w | None => if names npar i j then Some v else None end.
Proof.
  intros A npar j v d i. unfold item_for. cbn [rev]. generalize (rev d). induction l as [|[j' w] l IH]; cbn [app find fst snd option_map].
  - now destruct (names npar i j).
  - destruct (names npar i j'); auto.
Qed.
Lemma write_view_spec : forall A npar (d : list (Z * A)) l dflt, npar <= length l -> (forall e, In e d -> key_ok npar (fst e)) ->
  snd (write_view npar l d) = true /\ length (fst (write_view npar l d)) = length l /\
  (forall i, i < npar -> nth i (fst (write_view npar l d)) dflt = match item_for npar d i with Some v => v | None => nth i l dflt end) /\
  skipn npar (fst (write_view npar l d)) = skipn npar l.
Proof.
  intros A npar d. induction d as [|[j v] d IH]; intros l dflt HL HK.
  - cbn. repeat split; auto.
  - cbn [write_view]. rewrite Nat.min_l by lia.
    destruct (py_index_names npar j (HK (j, v) (or_introl eq_refl))) as (i0 & E & Hi0 & HN). rewrite E.
    destruct (IH (set_nth i0 v l) dflt) as (I1 & I2 & I3 & I4); [rewrite set_nth_length; lia|intros e He; apply HK; now right|].
    split; [exact I1|]. split; [now rewrite I2, set_nth_length|]. split.
    + intros i Hi. rewrite I3 by auto. rewrite item_for_cons. destruct (item_for npar d i); auto.
      destruct (names npar i j) eqn:En.
      * apply HN in En; auto. subst. apply nth_set_same. lia.
      * apply nth_set_other. intros ->. assert (names npar i j = true) by now apply HN. congruence.
    + rewrite I4. clear - Hi0. revert npar i0 Hi0. unfold set_nth. induction l as [|a l IH]; intros [|npar] i0 H; try lia; destruct i0; cbn; auto.
      apply IH. lia.
Qed.

Section LeadProps.
Variable K : CRing.
Add Ring Klp : (rth K).
Local Open Scope rng_scope.
Variables (spin : bool) (npar : nat).
Local Notation par := (par K).
Local Notation dpar := (dpar K).
Local Notation doubled := (doubled spin).

(** the value an argument names for lead i *)
Definition par_for (x : par) (i : nat) : option K :=
  match x with PDict _ d => item_for npar d i | PList _ [v] => Some v | PList _ l => nth_error l i | PNum _ v => Some v | POther _ => None end.
Definition dpar_for (x : dpar) (i : nat) : option (K * K) :=
  match x with
  | DDict _ d => option_map (fun w => match w with inl v => (- v, v) | inr p => p end) (item_for npar d i)
  | DNums _ [v] => Some (- v, v)
  | DNums _ l => option_map (fun v => (- v, v)) (nth_error l i)
  | DPairs _ [p] => Some p
  | DPairs _ l => nth_error l i
  | DNum _ v => Some (- v, v)
  | DOther _ => None
  end.
(** keys of existing leads; lists with one value for each lead, or (without spin symmetry) a single one *)
Definition len_ok {A} (single : bool) (l : list A) : Prop := length l = npar \/ (single = true /\ spin = false /\ length l = 1%nat).
Definition par_ok (single : bool) (x : par) : Prop :=
  match x with PDict _ d => forall e, In e d -> key_ok npar (fst e) | PList _ l => len_ok single l | PNum _ _ => True | POther _ => False end.
Definition dpar_ok (single : bool) (x : dpar) : Prop :=
  match x with
  | DDict _ d => forall e, In e d -> key_ok npar (fst e)
  | DNums _ l => l <> [] /\ (length l = npar \/ length l = 1%nat)
  | DPairs _ l => len_ok single l | DNum _ _ => True | DOther _ => False
  end.

Lemma doubled_length : forall B (b b' : list B), length b = length b' -> length (doubled b) = length (doubled b').
Proof. intros B b b' H. unfold LeadParams.doubled. destruct spin; rewrite ?app_length; lia. Qed.
Lemma combine_doubled : forall A (plus : A -> A -> A) (b c : list A), length b = length c ->
  map (fun p => plus (fst p) (snd p)) (combine (doubled b) (doubled c)) = doubled (map (fun p => plus (fst p) (snd p)) (combine b c)).
Proof.
  intros A plus b c H. unfold LeadParams.doubled. destruct spin; auto. rewrite <- map_app. f_equal.
  assert (G : forall (x y x' y' : list A), length x = length y -> combine (x ++ x') (y ++ y') = combine x y ++ combine x' y').
  { induction x as [|u x IH]; intros [|v y] x' y' E; cbn in *; try lia; auto. f_equal. apply IH. lia. }
  now apply G.
Qed.

(** *** one array *)
Section One.
Context {A X : Type}.
Variables (make : option (list A) -> X -> option (list A) * option (list A)) (plus : A -> A -> A) (zero : A).
Variables (for_ : X -> nat -> option A) (ok : bool -> X -> Prop).
Definition or (o : option A) (d : A) : A := match o with Some v => v | None => d end.
(** a good array: one value for each lead, repeated for the other spin *)
Definition holds (l : list A) (f : nat -> A) : Prop := exists b, length b = npar /\ l = doubled b /\ forall i, (i < npar)%nat -> nth i b zero = f i.
Hypothesis plus_zero : forall a, plus a zero = a.
Hypothesis make_new : forall single x, ok single x -> exists r, snd (make None x) = Some r /\
  (single = false -> holds r (fun i => or (for_ x i) zero)) /\
  exists a, broadcast (length (doubled (repeat zero npar))) r = Some a /\ holds a (fun i => or (for_ x i) zero).
Hypothesis make_old : forall b x, length b = npar -> ok true x ->
  exists o r a, make (Some (doubled b)) x = (Some o, Some r) /\ broadcast (length o) r = Some a /\ holds a (fun i => or (for_ x i) (nth i b zero)).

Lemma change_one_ok : forall self f x, holds self f -> ok true x ->
  snd (change_one make self x) = true /\ holds (fst (change_one make self x)) (fun i => or (for_ x i) (f i)).
Proof.
  intros self f x (b & Lb & -> & Hb) OK. destruct (make_old b x Lb OK) as (o & r & a & E & Ea & (c & Lc & -> & Hc)).
  unfold change_one. rewrite E, Ea. cbn [fst snd]. split; auto. exists c. split; auto. split; auto. intros i Hi. rewrite Hc by auto. now rewrite Hb.
Qed.
Lemma map_combine_nth : forall (l l' : list A) i, length l = length l' -> (i < length l)%nat ->
  nth i (map (fun p => plus (fst p) (snd p)) (combine l l')) zero = plus (nth i l zero) (nth i l' zero).
Proof.
  induction l as [|a l IH]; intros [|a' l'] i E H; cbn in *; try lia. destruct i; auto. apply IH; lia.
Qed.
Lemma add_one_ok : forall self f x, holds self f -> ok true x ->
  snd (add_one make plus self x) = true /\ holds (fst (add_one make plus self x)) (fun i => plus (f i) (or (for_ x i) zero)).
Proof.
  intros self f x (b & Lb & -> & Hb) OK. destruct (make_new true x OK) as (r & Er & _ & a & Ea & (c & Lc & -> & Hc)).
  unfold add_one. destruct (make None x) as [o r']. cbn [snd] in Er. subst r'.
  rewrite (doubled_length _ b (repeat zero npar)) by (rewrite repeat_length; auto). rewrite Ea. cbn [fst snd]. split; auto.
  exists (map (fun p => plus (fst p) (snd p)) (combine b c)). rewrite map_length, combine_length. split; [lia|]. split; [apply combine_doubled; lia|].
  intros i Hi. rewrite map_combine_nth by lia. rewrite Hb, Hc; auto.
Qed.
End One.

(** *** the three arrays *)
Lemma broadcast_same : forall A (l : list A) n, length l = n -> broadcast n l = Some l.
Proof. intros A l n H. unfold broadcast. now rewrite H, Nat.eqb_refl. Qed.
Lemma nth_repeat' : forall A (x d : A) n i, (i < n)%nat -> nth i (repeat x n) d = x.
Proof. induction n; intros [|i] H; cbn; try lia; auto. apply IHn. lia. Qed.
Lemma list_value : forall A (l : list A) i d, length l = npar -> (i < npar)%nat ->
  or match l with [v] => Some v | _ => nth_error l i end d = nth i l d.
Proof.
  intros A [|a [|a' l]] i d H Hi; cbn [length] in H; try lia.
  - replace i with 0%nat by lia. reflexivity.
  - destruct (nth_error (a :: a' :: l) i) as [v|] eqn:E; cbn [or].
    + symmetry. now apply nth_error_nth.
    + apply nth_error_None in E. cbn [length] in E. lia.
Qed.
Lemma nth_dflt : forall A (l : list A) i d d', (i < length l)%nat -> nth i l d = nth i l d'.
Proof. intros. now apply nth_indep. Qed.
Lemma single_value : forall A (l : list A), length l = 1%nat -> exists v, l = [v].
Proof. intros A [|v [|w l]] H; cbn in H; try lia. eauto. Qed.
Lemma doubled_len : forall A (l : list A), length (doubled l) = if spin then (length l + length l)%nat else length l.
Proof. intros. unfold LeadParams.doubled. destruct spin; auto. apply app_length. Qed.

(** a list argument, one value for each lead or a single one *)
Lemma list_arg : forall A (zero : A) (l : list A) single n, len_ok single l -> n = length (doubled (repeat zero npar)) ->
  (single = false -> holds zero (doubled l) (fun i => nth i l zero)) /\
  exists a, broadcast n (doubled l) = Some a /\ forall d, holds zero a (fun i => or match l with [v] => Some v | _ => nth_error l i end (d i)).
Proof.
  intros A zero l single n H ->. split.
  { intros ->. destruct H as [H|(H & _)]; [|discriminate]. exists l. repeat split; auto. }
  destruct H as [H|(Es & Hs & H)].
  - exists (doubled l). split.
    + apply broadcast_same. apply doubled_length. now rewrite repeat_length.
    + intros d. exists l. repeat split; auto. intros i Hi. rewrite list_value by auto. apply nth_dflt. lia.
  - destruct (single_value _ _ H) as (v & ->). rewrite doubled_len, repeat_length. rewrite Hs. unfold LeadParams.doubled.
    exists (repeat v npar). split.
    + unfold broadcast. destruct (Nat.eqb_spec (length [v]) npar) as [E|E]; auto. rewrite <- E. reflexivity.
    + intros d. exists (repeat v npar). rewrite repeat_length. split; auto. unfold LeadParams.doubled. rewrite Hs. split; auto.
      intros i Hi. cbn [or]. now apply nth_repeat'.
Qed.

Lemma firstn_doubled : forall A (b : list A), length b = npar -> firstn npar (doubled b) = b.
Proof.
  intros A b H. unfold LeadParams.doubled. destruct spin; [|apply firstn_all2; lia]. rewrite firstn_app, H, Nat.sub_diag, firstn_O, app_nil_r. apply firstn_all2. lia.
Qed.
Lemma view_le : forall A (b : list A), length b = npar -> (npar <= length (doubled b))%nat.
Proof. intros A b H. rewrite doubled_len. destruct spin; lia. Qed.
Lemma nth_doubled : forall A (b : list A) i d, length b = npar -> (i < npar)%nat -> nth i (doubled b) d = nth i b d.
Proof. intros A b i d H Hi. unfold LeadParams.doubled. destruct spin; auto. apply app_nth1. lia. Qed.
Lemma nth_firstn : forall A n (l : list A) i d, (i < n)%nat -> nth i (firstn n l) d = nth i l d.
Proof. intros A n. induction n as [|n IH]; intros [|a l] [|i] d H; cbn; try lia; auto. apply IH. lia. Qed.

(** a dictionary written to a view *)
Lemma dict_arg : forall A (zero : A) (b : list A) d, length b = npar -> (forall e, In e d -> key_ok npar (fst e)) ->
  snd (write_view npar (doubled b) d) = true /\
  broadcast (length (fst (write_view npar (doubled b) d))) (doubled (firstn npar (fst (write_view npar (doubled b) d)))) =
    Some (doubled (firstn npar (fst (write_view npar (doubled b) d)))) /\
  holds zero (doubled (firstn npar (fst (write_view npar (doubled b) d)))) (fun i => or (item_for npar d i) (nth i b zero)).
Proof.
  intros A zero b d H HK. destruct (write_view_spec A npar d (doubled b) zero (view_le _ b H) HK) as (W1 & W2 & W3 & _).
  set (l := fst (write_view npar (doubled b) d)) in *.
  assert (LF : length (firstn npar l) = npar) by (rewrite firstn_length, W2; pose proof (view_le _ b H); lia).
  split; auto. split.
  - apply broadcast_same. rewrite W2. apply doubled_length. lia.
  - exists (firstn npar l). split; auto. split; auto. intros i Hi. rewrite nth_firstn by auto. rewrite W3 by auto. rewrite nth_doubled by auto. reflexivity.
Qed.
Lemma dict_new : forall A (zero : A) d, (forall e, In e d -> key_ok npar (fst e)) ->
  snd (write_view npar (repeat zero npar) d) = true /\ length (fst (write_view npar (repeat zero npar) d)) = npar /\
  holds zero (doubled (firstn npar (fst (write_view npar (repeat zero npar) d)))) (fun i => or (item_for npar d i) zero).
Proof.
  intros A zero d HK. destruct (write_view_spec A npar d (repeat zero npar) zero) as (W1 & W2 & W3 & _); auto; [rewrite repeat_length; lia|].
  rewrite repeat_length in W2. split; auto. split; auto. exists (firstn npar (fst (write_view npar (repeat zero npar) d))).
  split; [rewrite firstn_length; lia|]. split; auto. intros i Hi. rewrite nth_firstn, W3 by auto. now rewrite nth_repeat'.
Qed.
Lemma holds_broadcast : forall A (zero : A) r f, holds zero r f -> exists a, broadcast (length (doubled (repeat zero npar))) r = Some a /\ holds zero a f.
Proof.
  intros A zero r f (b & Lb & -> & Hb). exists (doubled b). split; [apply broadcast_same; apply doubled_length; now rewrite repeat_length|]. exists b. auto.
Qed.
Lemma holds_ext : forall A (zero : A) r f g, (forall i, (i < npar)%nat -> f i = g i) -> holds zero r f -> holds zero r g.
Proof. intros A zero r f g E (b & Lb & -> & Hb). exists b. split; auto. split; auto. intros i Hi. rewrite Hb by auto. auto. Qed.
Lemma ones_map : forall v : K, map (fun x : K => v * x) (repeat (1 : K) npar) = repeat v npar.
Proof. intros v. induction npar as [|n IH]; cbn; auto. rewrite IH. f_equal. ring. Qed.

Lemma par_new : forall single x, par_ok single x -> exists r, snd (make_array K spin npar None x) = Some r /\
  (single = false -> holds 0 r (fun i => or (par_for x i) 0)) /\
  exists a, broadcast (length (doubled (repeat (0 : K) npar))) r = Some a /\ holds 0 a (fun i => or (par_for x i) 0).
Proof.
  intros single [d|l|v|] OK; cbn [par_ok] in OK; cbn [make_array].
  - destruct (dict_new K 0 d OK) as (W1 & W2 & W3). destruct (write_view npar (repeat 0 npar) d) as [l ok]. cbn [fst snd] in *. subst ok.
    eexists. split; [reflexivity|]. split; [intros _; exact W3|]. now apply holds_broadcast.
  - destruct (list_arg K 0 l single _ OK eq_refl) as (L1 & a & Ea & Ha). eexists. split; [reflexivity|]. split.
    + intros E. apply (holds_ext _ _ _ (fun i => nth i l 0)); auto. intros i Hi. destruct OK as [H|(H & _)]; [|congruence].
      cbn [par_for]. now rewrite list_value.
    + exists a. split; [exact Ea|apply (Ha (fun _ => 0))].
  - rewrite ones_map. assert (Hh : holds 0 (doubled (repeat v npar)) (fun i => or (par_for (PNum K v) i) 0)).
    { exists (repeat v npar). rewrite repeat_length. repeat split; auto. intros i Hi. cbn. now apply nth_repeat'. }
    eexists. split; [reflexivity|]. split; [intros _; exact Hh|]. now apply holds_broadcast.
  - destruct OK.
Qed.
Lemma par_old : forall b x, length b = npar -> par_ok true x ->
  exists o r a, make_array K spin npar (Some (doubled b)) x = (Some o, Some r) /\ broadcast (length o) r = Some a /\ holds 0 a (fun i => or (par_for x i) (nth i b 0)).
Proof.
  intros b x Lb OK. assert (LD : length (doubled b) = length (doubled (repeat (0 : K) npar))) by (apply doubled_length; now rewrite repeat_length).
  destruct x as [d|l|v|]; cbn [par_ok] in OK; cbn [make_array].
  - destruct (dict_arg K 0 b d Lb OK) as (W1 & W2 & W3). destruct (write_view npar (doubled b) d) as [l ok]. cbn [fst snd] in *. subst ok.
    eexists _, _, _. split; [reflexivity|]. split; [exact W2|exact W3].
  - destruct (list_arg K 0 l true _ OK eq_refl) as (_ & a & Ea & Ha). eexists _, _, a. split; [reflexivity|]. rewrite LD. split; [exact Ea|apply (Ha (fun i => nth i b 0))].
  - rewrite ones_map. eexists _, _, _. split; [reflexivity|]. split; [apply broadcast_same; rewrite LD; apply doubled_length; now rewrite !repeat_length|].
    exists (repeat v npar). rewrite repeat_length. repeat split; auto. intros i Hi. cbn. now apply nth_repeat'.
  - destruct OK.
Qed.

(** dlst *)
Lemma item_for_map : forall A B (g : A -> B) d i, item_for npar (map (fun e => (fst e, g (snd e))) d) i = option_map g (item_for npar d i).
Proof.
  intros A B g d i. unfold item_for. rewrite <- map_rev. induction (rev d) as [|[j v] l IH]; auto. cbn [map find fst snd]. destruct (names npar i j); auto.
Qed.
Lemma cols_spec : forall l w, (npar <= length l)%nat -> (length w = npar \/ length w = 1%nat) ->
  snd (write_cols K npar l w) = true /\ length (fst (write_cols K npar l w)) = length l /\
  forall i, (i < npar)%nat -> nth i (fst (write_cols K npar l w)) (0, 0) = or (option_map (fun v => (- v, v)) match w with [v] => Some v | _ => nth_error w i end) (0, 0).
Proof.
  intros l w HL Hw. unfold write_cols. rewrite Nat.min_l by lia.
  assert (B : exists w', broadcast npar w = Some w' /\ length w' = npar /\ forall i, (i < npar)%nat -> nth i w' 0 = or match w with [v] => Some v | _ => nth_error w i end 0).
  { destruct Hw as [Hw|Hw].
    - exists w. split; [now apply broadcast_same|]. split; auto. intros i Hi. now rewrite list_value.
    - destruct (single_value _ _ Hw) as (v & ->). exists (repeat v npar). split; [|rewrite repeat_length; split; auto; intros i Hi; cbn; now apply nth_repeat'].
      unfold broadcast. destruct (Nat.eqb_spec (length [v]) npar) as [E|E]; auto. rewrite <- E. reflexivity. }
  destruct B as (w' & -> & Lw & Hv). cbn [fst snd]. split; auto. split; [rewrite app_length, map_length, skipn_length; lia|].
  intros i Hi. rewrite app_nth1 by (rewrite map_length; lia). rewrite (nth_indep _ (0, 0) (- (0 : K), 0 : K)) by (rewrite map_length; lia).
  change (- (0 : K), 0 : K) with ((fun v : K => (- v, v)) 0). rewrite map_nth. rewrite Hv by auto.
  destruct w as [|v [|v' w]]; cbn [or option_map].
  - cbn [length] in Hw. lia.
  - reflexivity.
  - destruct (nth_error _ i) as [u|] eqn:E; cbn [or option_map]; auto. f_equal. ring.
Qed.

Definition zz : K * K := (0, 0).
Lemma dpar_new : forall single x, dpar_ok single x -> exists r, snd (make_array_dlst K spin npar None x) = Some r /\
  (single = false -> holds zz r (fun i => or (dpar_for x i) zz)) /\
  exists a, broadcast (length (doubled (repeat zz npar))) r = Some a /\ holds zz a (fun i => or (dpar_for x i) zz).
Proof.
  intros single x OK.
  assert (COL : forall w f, (length w = npar \/ length w = 1%nat) -> (forall i, (i < npar)%nat -> or (option_map (fun v => (- v, v)) match w with [v] => Some v | _ => nth_error w i end) zz = f i) ->
    snd (write_cols K npar (repeat zz npar) w) = true /\ holds zz (doubled (firstn npar (fst (write_cols K npar (repeat zz npar) w)))) f).
  { intros w f Hw Hf. destruct (cols_spec (repeat zz npar) w) as (C1 & C2 & C3); [rewrite repeat_length; lia|auto|]. split; auto.
    exists (firstn npar (fst (write_cols K npar (repeat zz npar) w))). rewrite firstn_length, C2, repeat_length. split; [lia|]. split; auto.
    intros i Hi. rewrite nth_firstn by auto. unfold zz at 1. rewrite C3 by auto. apply Hf. auto. }
  destruct x as [d|l|p|v|]; cbn [dpar_ok] in OK; cbn [make_array_dlst].
  - assert (OK' : forall e, In e (map (fun e => (fst e, band K (snd e))) d) -> key_ok npar (fst e)).
    { intros e He. apply in_map_iff in He. destruct He as (e' & <- & He). cbn [fst]. auto. }
    destruct (dict_new (K * K) zz _ OK') as (W1 & W2 & W3). fold zz. destruct (write_view npar (repeat zz npar) _) as [l ok]. cbn [fst snd] in *. subst ok.
    assert (W4 : holds zz (doubled (firstn npar l)) (fun i => or (dpar_for (DDict K d) i) zz)).
    { apply (holds_ext _ _ _ _ _) with (2 := W3). intros i Hi. rewrite item_for_map. reflexivity. }
    eexists. split; [reflexivity|]. split; [intros _; exact W4|]. now apply holds_broadcast.
  - destruct OK as (N & OK). destruct l as [|v0 l0] eqn:El; [congruence|]. rewrite <- El in *. fold zz.
    destruct (COL l (fun i => or (dpar_for (DNums K l) i) zz) OK) as (C1 & C2).
    { intros i Hi. cbn [dpar_for]. destruct l as [|a [|a' l]]; [congruence|reflexivity|reflexivity]. }
    destruct (write_cols K npar (repeat zz npar) l) as [m ok]. cbn [fst snd] in *. subst ok.
    eexists. split; [reflexivity|]. split; [intros _; exact C2|]. now apply holds_broadcast.
  - destruct (list_arg (K * K) zz p single _ OK eq_refl) as (L1 & a & Ea & Ha). eexists. split; [reflexivity|]. split.
    + intros E. apply (holds_ext _ _ _ (fun i => nth i p zz)); auto. intros i Hi. destruct OK as [H|(H & _)]; [|congruence].
      cbn [dpar_for]. now rewrite list_value.
    + exists a. split; [exact Ea|apply (Ha (fun _ => zz))].
  - fold zz. rewrite ones_map. destruct (COL (repeat v npar) (fun i => or (dpar_for (DNum K v) i) zz)) as (C1 & C2).
    { left. apply repeat_length. }
    { intros i Hi. cbn [dpar_for or]. pose proof (list_value K (repeat v npar) i 0 (repeat_length _ _) Hi) as LV. rewrite nth_repeat' in LV by auto.
      destruct (repeat v npar) as [|a [|a' l]] eqn:E; cbn [or option_map] in *.
      - assert (length (repeat v npar) = 0%nat) by now rewrite E. rewrite repeat_length in H. lia.
      - now rewrite LV.
      - destruct (nth_error _ i) as [u|] eqn:En; cbn [or option_map] in *; [now rewrite LV|].
        apply nth_error_None in En. rewrite <- E, repeat_length in En. lia. }
    destruct (write_cols K npar (repeat zz npar) _) as [m ok]. cbn [fst snd] in *. subst ok.
    eexists. split; [reflexivity|]. split; [intros _; exact C2|]. now apply holds_broadcast.
  - destruct OK.
Qed.
Lemma dpar_old : forall b x, length b = npar -> dpar_ok true x ->
  exists o r a, make_array_dlst K spin npar (Some (doubled b)) x = (Some o, Some r) /\ broadcast (length o) r = Some a /\ holds zz a (fun i => or (dpar_for x i) (nth i b zz)).
Proof.
  intros b x Lb OK. assert (LD : length (doubled b) = length (doubled (repeat zz npar))) by (apply doubled_length; now rewrite repeat_length).
  assert (COL : forall w f, (length w = npar \/ length w = 1%nat) -> (forall i, (i < npar)%nat -> or (option_map (fun v => (- v, v)) match w with [v] => Some v | _ => nth_error w i end) zz = f i) ->
    snd (write_cols K npar (doubled b) w) = true /\ length (fst (write_cols K npar (doubled b) w)) = length (doubled b) /\
    broadcast (length (doubled b)) (doubled (firstn npar (fst (write_cols K npar (doubled b) w)))) = Some (doubled (firstn npar (fst (write_cols K npar (doubled b) w)))) /\
    holds zz (doubled (firstn npar (fst (write_cols K npar (doubled b) w)))) f).
  { intros w f Hw Hf. pose proof (view_le _ b Lb) as VL. destruct (cols_spec (doubled b) w) as (C1 & C2 & C3); [lia|auto|]. split; auto. split; auto.
    assert (LF : length (firstn npar (fst (write_cols K npar (doubled b) w))) = npar) by (rewrite firstn_length, C2; lia).
    split; [apply broadcast_same, doubled_length; lia|].
    exists (firstn npar (fst (write_cols K npar (doubled b) w))). split; [lia|]. split; auto.
    intros i Hi. rewrite nth_firstn by auto. unfold zz at 1. rewrite C3 by auto. apply Hf. auto. }
  destruct x as [d|l|p|v|]; cbn [dpar_ok] in OK; cbn [make_array_dlst].
  - assert (OK' : forall e, In e (map (fun e => (fst e, band K (snd e))) d) -> key_ok npar (fst e)).
    { intros e He. apply in_map_iff in He. destruct He as (e' & <- & He). cbn [fst]. auto. }
    destruct (dict_arg (K * K) zz b _ Lb OK') as (W1 & W2 & W3). destruct (write_view npar (doubled b) _) as [l ok]. cbn [fst snd option_map] in *. subst ok.
    eexists _, _, _. split; [reflexivity|]. split; [exact W2|]. apply (holds_ext _ _ _ _ _) with (2 := W3). intros i Hi. rewrite item_for_map. reflexivity.
  - destruct OK as (N & OK). destruct l as [|v0 l0] eqn:El; [congruence|]. rewrite <- El in *.
    destruct (COL l (fun i => or (dpar_for (DNums K l) i) (nth i b zz)) OK) as (C1 & C2 & C3 & C4).
    { intros i Hi. cbn [dpar_for]. destruct l as [|a [|a' l]]; [congruence|reflexivity|].
      destruct (nth_error (a :: a' :: l) i) eqn:En; [reflexivity|]. apply nth_error_None in En. destruct OK as [OK|OK]; cbn [length] in *; lia. }
    destruct (write_cols K npar (doubled b) l) as [m ok]. cbn [fst snd option_map] in *. subst ok.
    eexists _, _, _. split; [reflexivity|]. rewrite C2. split; [exact C3|exact C4].
  - destruct (list_arg (K * K) zz p true _ OK eq_refl) as (_ & a & Ea & Ha). eexists _, _, a. split; [reflexivity|]. rewrite LD. split; [exact Ea|apply (Ha (fun i => nth i b zz))].
  - rewrite ones_map. destruct (COL (repeat v npar) (fun i => or (dpar_for (DNum K v) i) (nth i b zz))) as (C1 & C2 & C3 & C4).
    { left. apply repeat_length. }
    { intros i Hi. cbn [dpar_for or]. pose proof (list_value K (repeat v npar) i 0 (repeat_length _ _) Hi) as LV. rewrite nth_repeat' in LV by auto.
      destruct (repeat v npar) as [|a [|a' l]] eqn:E; cbn [or option_map] in *.
      - assert (length (repeat v npar) = 0%nat) by now rewrite E. rewrite repeat_length in H. lia.
      - now rewrite LV.
      - destruct (nth_error _ i) as [u|] eqn:En; cbn [or option_map] in *; [now rewrite LV|].
        apply nth_error_None in En. rewrite <- E, repeat_length in En. lia. }
    destruct (write_cols K npar (doubled b) _) as [m ok]. cbn [fst snd option_map] in *. subst ok.
    eexists _, _, _. split; [reflexivity|]. rewrite C2. split; [exact C3|exact C4].
  - destruct OK.
Qed.

(** *** histories *)
(** the parameters of the leads (one value for both spins) after a call *)
Definition vals := ((nat -> K) * (nat -> K) * (nat -> K * K))%type.
Definition set_to {A X} (for_ : X -> nat -> option A) (x : option X) (f : nat -> A) (i : nat) : A :=
  match x with None => f i | Some x => or (for_ x i) (f i) end.
Definition plus_to {A X} (for_ : X -> nat -> option A) (plus : A -> A -> A) (x : option X) (f : nat -> A) (i : nat) : A :=
  match match x with None => None | Some x => for_ x i end with None => f i | Some v => plus (f i) v end.
Definition after (v : vals) (c : call K) : vals :=
  let '(mu, T, D) := v in
  match c with
  | CChange _ m t d => (set_to par_for m mu, set_to par_for t T, set_to dpar_for d D)
  | CAdd _ m t d => (plus_to par_for (fun a b => a + b) m mu, plus_to par_for (fun a b => a + b) t T,
                     plus_to dpar_for (fun p q => (fst p + fst q, snd p + snd q)) d D)
  end.
Definition opt_ok {X} (ok : X -> Prop) (x : option X) : Prop := match x with None => True | Some x => ok x end.
Definition call_ok (c : call K) : Prop :=
  match c with CChange _ m t d | CAdd _ m t d => opt_ok (par_ok true) m /\ opt_ok (par_ok true) t /\ opt_ok (dpar_ok true) d end.
(** entry i of each array, and entry i + npar with spin symmetry, is the parameter of lead i *)
Definition stores {A} (l : list A) (f : nat -> A) : Prop :=
  length l = (if spin then 2 * npar else npar)%nat /\
  forall i, (i < npar)%nat -> nth_error l i = Some (f i) /\ (spin = true -> nth_error l (i + npar) = Some (f i)).
Definition stored (s : LP K) (v : vals) : Prop :=
  let '(mu, T, D) := v in stores (lp_mu K s) mu /\ stores (lp_T K s) T /\ stores (lp_D K s) D.
Lemma holds_stores : forall A (zero : A) l f, holds zero l f -> stores l f.
Proof.
  intros A zero l f (b & Lb & -> & Hb). split; [rewrite doubled_len; destruct spin; lia|]. intros i Hi.
  assert (E : nth_error b i = Some (f i)) by (rewrite <- Hb by auto; apply nth_error_nth'; lia).
  unfold LeadParams.doubled. split.
  - destruct spin; auto. rewrite nth_error_app1 by lia. exact E.
  - intros ->. rewrite nth_error_app2 by lia. replace (i + npar - length b)%nat with i by lia. exact E.
Qed.
Definition kept (s : LP K) (v : vals) : Prop :=
  let '(mu, T, D) := v in holds 0 (lp_mu K s) mu /\ holds 0 (lp_T K s) T /\ holds zz (lp_D K s) D.
Lemma step_kept : forall c s v, call_ok c -> kept s v -> snd (lp_step K spin npar s c) = true /\ kept (fst (lp_step K spin npar s c)) (after v c).
Proof.
  assert (PZ : forall a : K, a + 0 = a) by (intros; ring).
  assert (PZ2 : forall a : K * K, addp K a zz = a) by (intros [a a']; unfold addp, zz; cbn [fst snd]; f_equal; ring).
  assert (AP : forall A X (f : list A -> X -> list A * bool) (ok : X -> Prop) (zero : A) (g : option X -> (nat -> A) -> nat -> A) self h x,
     (forall x, ok x -> snd (f self x) = true /\ holds zero (fst (f self x)) (g (Some x) h)) -> (forall i, g None h i = h i) ->
     holds zero self h -> opt_ok ok x -> snd (opt_do f self x) = true /\ holds zero (fst (opt_do f self x)) (g x h)).
  { intros A X f ok zero g self h [x|] H G Hs OK; cbn [opt_do opt_ok fst snd] in *; [now apply H|]. split; auto.
    apply (holds_ext _ _ _ h); auto. }
  assert (T3 : forall f g s m t d mu' T' D', 
     (snd (opt_do f (lp_mu K s) m) = true /\ holds 0 (fst (opt_do f (lp_mu K s) m)) mu') ->
     (snd (opt_do f (lp_T K s) t) = true /\ holds 0 (fst (opt_do f (lp_T K s) t)) T') ->
     (snd (opt_do g (lp_D K s) d) = true /\ holds zz (fst (opt_do g (lp_D K s) d)) D') ->
     snd (three K f g s m t d) = true /\ kept (fst (three K f g s m t d)) (mu', T', D')).
  { intros f g s m t d mu' T' D' (M1 & M2) (T1 & T2) (D1 & D2). unfold three.
    destruct (opt_do f (lp_mu K s) m) as [a oa]. cbn [fst snd] in *. subst oa. cbn [negb].
    destruct (opt_do f (lp_T K s) t) as [b ob]. cbn [fst snd] in *. subst ob. cbn [negb].
    destruct (opt_do g (lp_D K s) d) as [c oc]. cbn [fst snd] in *. subst oc. split; auto. repeat split; assumption. }
  intros c s [[mu T] D] OK (K1 & K2 & K3). destruct c as [m t d|m t d]; destruct OK as (O1 & O2 & O3); cbn [lp_step after].
  - assert (ADD : forall A X (make : option (list A) -> X -> option (list A) * option (list A)) plus zero for_ (ok : bool -> X -> Prop),
       (forall a, plus a zero = a) ->
       (forall single x, ok single x -> exists r, snd (make None x) = Some r /\ (single = false -> holds zero r (fun i => or (for_ x i) zero)) /\
          exists a, broadcast (length (doubled (repeat zero npar))) r = Some a /\ holds zero a (fun i => or (for_ x i) zero)) ->
       forall self h x, holds zero self h -> opt_ok (ok true) x ->
       snd (opt_do (add_one make plus) self x) = true /\ holds zero (fst (opt_do (add_one make plus) self x)) (plus_to for_ plus x h)).
    { intros A X make plus zero for_ ok P0 MN self h x Hs Hx.
      apply (AP A X (add_one make plus) (ok true) zero (plus_to for_ plus)); auto.
      intros y Hy. destruct (add_one_ok make plus zero for_ ok MN self h y Hs Hy) as (A1 & A2). split; auto.
      apply (holds_ext _ _ _ _ _) with (2 := A2). intros i _. unfold plus_to. destruct (for_ y i); cbn [or]; auto. }
    apply T3; [apply (ADD _ _ _ _ 0 par_for par_ok)|apply (ADD _ _ _ _ 0 par_for par_ok)|apply (ADD _ _ _ _ zz dpar_for dpar_ok)]; auto using par_new, dpar_new.
  - assert (CH : forall A X (make : option (list A) -> X -> option (list A) * option (list A)) zero for_ (ok : bool -> X -> Prop),
       (forall b x, length b = npar -> ok true x -> exists o r a, make (Some (doubled b)) x = (Some o, Some r) /\ broadcast (length o) r = Some a /\
          holds zero a (fun i => or (for_ x i) (nth i b zero))) ->
       forall self h x, holds zero self h -> opt_ok (ok true) x ->
       snd (opt_do (change_one make) self x) = true /\ holds zero (fst (opt_do (change_one make) self x)) (set_to for_ x h)).
    { intros A X make zero for_ ok MO self h x Hs Hx.
      apply (AP A X (change_one make) (ok true) zero (set_to for_)); auto.
      intros y Hy. apply (change_one_ok make zero for_ ok MO self h y Hs Hy). }
    apply T3; [apply (CH _ _ _ 0 par_for par_ok)|apply (CH _ _ _ 0 par_for par_ok)|apply (CH _ _ _ zz dpar_for dpar_ok)]; auto using par_old, dpar_old.
Qed.

(** For every sequence of calls nothing raises and every array holds exactly the named values: change sets the named leads
    and leaves the others, add adds to the named leads, with spin symmetry for both spins. *)
Theorem C44_values : forall mu T D cs, par_ok false mu -> par_ok false T -> dpar_ok false D -> Forall call_ok cs ->
  exists s0 s, lp_init K spin npar mu T D = Some s0 /\ lp_run K spin npar s0 cs = (s, true) /\
    stored s (fold_left after cs (fun i => or (par_for mu i) 0, fun i => or (par_for T i) 0, fun i => or (dpar_for D i) (0, 0))).
Proof.
  intros mu T D cs O1 O2 O3 OC.
  destruct (par_new false mu O1) as (m & Em & Hm & _). destruct (par_new false T O2) as (t & Et & Ht & _). destruct (dpar_new false D O3) as (d & Ed & Hd & _).
  exists (mkLP K m t d). unfold lp_init. rewrite Em, Et, Ed.
  assert (K0 : kept (mkLP K m t d) (fun i => or (par_for mu i) 0, fun i => or (par_for T i) 0, fun i => or (dpar_for D i) (0, 0))).
  { repeat split; cbn [lp_mu lp_T lp_D]; auto. }
  clear Em Et Ed. revert K0. generalize (mkLP K m t d) (fun i => or (par_for mu i) 0, fun i => or (par_for T i) 0, fun i => or (dpar_for D i) (0, 0)).
  clear Hm Ht Hd. induction OC as [|c cs Hc _ IH]; intros s v K0.
  - exists s. split; auto. split; auto. destruct v as [[a b] c]. destruct K0 as (K1 & K2 & K3). cbn [fold_left stored].
    split; [|split]; [exact (holds_stores _ _ _ _ K1)|exact (holds_stores _ _ _ _ K2)|exact (holds_stores _ _ _ _ K3)].
  - destruct (step_kept c s v Hc K0) as (S1 & S2). cbn [lp_run fold_left]. destruct (lp_step K spin npar s c) as [s1 ok]. cbn [fst snd] in *. subst ok.
    destruct (IH s1 (after v c) S2) as (s' & _ & R & H). exists s'. auto.
Qed.
(** *** what raises *)
Definition par_bad (x : par) : Prop :=
  match x with PDict _ d => exists e, In e d /\ ~ key_ok npar (fst e) | PList _ l => ~ len_ok true l | PNum _ _ => False | POther _ => False end.
Definition dpar_bad (x : dpar) : Prop :=
  match x with
  | DDict _ d => exists e, In e d /\ ~ key_ok npar (fst e)
  | DNums _ l => l = [] \/ (length l <> npar /\ length l <> 1%nat)
  | DPairs _ l => ~ len_ok true l | DNum _ _ => False | DOther _ => False
  end.
Definition opt_bad {X} (bad : X -> Prop) (x : option X) : Prop := match x with None => False | Some x => bad x end.
Definition call_bad (c : call K) : Prop :=
  match c with CChange _ m t d | CAdd _ m t d => opt_bad par_bad m \/ opt_bad par_bad t \/ opt_bad dpar_bad d end.

Lemma py_index_bad : forall n j, ~ key_ok n j -> py_index n j = None.
Proof.
  intros n j H. unfold key_ok in H. unfold py_index. destruct (Z.leb_spec 0 j).
  - destruct (Z.ltb_spec j (Z.of_nat n)); [lia|auto].
  - destruct (Z.leb_spec 0 (j + Z.of_nat n)); [lia|auto].
Qed.
Lemma write_view_bad : forall A (d : list (Z * A)) l, (npar <= length l)%nat -> (exists e, In e d /\ ~ key_ok npar (fst e)) -> snd (write_view npar l d) = false.
Proof.
  intros A d. induction d as [|[j v] d IH]; intros l HL (e & He & B); [destruct He|]. cbn [write_view]. rewrite Nat.min_l by lia.
  destruct (py_index npar j) as [i|] eqn:E; auto. apply IH; [rewrite set_nth_length; lia|]. destruct He as [<-|He]; [|eauto].
  cbn [fst] in B. rewrite (py_index_bad _ _ B) in E. discriminate.
Qed.
Lemma broadcast_bad : forall A (l : list A) n, length l <> n -> length l <> 1%nat -> broadcast n l = None.
Proof. intros A l n H H1. unfold broadcast. destruct (Nat.eqb_spec (length l) n); [contradiction|]. destruct l as [|a [|b l]]; auto. cbn in H1. lia. Qed.
Definition full {A} (l : list A) : Prop := length l = (if spin then 2 * npar else npar)%nat.
Lemma list_bad : forall A B (self : list B) (l : list A), full self -> ~ len_ok true l -> broadcast (length self) (doubled l) = None.
Proof.
  intros A B self l F N. unfold full in F. unfold len_ok in N. apply broadcast_bad; rewrite ?F; unfold LeadParams.doubled; destruct spin; rewrite ?app_length; intros E.
  - apply N. left. lia.
  - apply N. auto.
  - lia.
  - apply N. auto.
Qed.
Lemma full_le : forall A (l : list A), full l -> (npar <= length l)%nat.
Proof. intros A l F. unfold full in F. rewrite F. destruct spin; lia. Qed.
Lemma par_bad_change : forall self x, full self -> par_bad x -> snd (change_one (make_array K spin npar) self x) = false.
Proof.
  intros self [d|l|v|] F B; cbn [par_bad] in B; try contradiction; unfold change_one; cbn [make_array].
  - pose proof (write_view_bad K d self (full_le _ _ F)) as W. destruct (write_view npar self d) as [l ok]. cbn [fst snd] in *. rewrite W by eauto. reflexivity.
  - now rewrite list_bad.
Qed.
Lemma par_bad_add : forall plus self x, full self -> par_bad x -> add_one (make_array K spin npar) plus self x = (self, false).
Proof.
  intros plus self [d|l|v|] F B; cbn [par_bad] in B; try contradiction; unfold add_one; cbn [make_array].
  - pose proof (write_view_bad K d (repeat 0 npar)) as W. destruct (write_view npar (repeat 0 npar) d) as [l ok]. cbn [fst snd] in *.
    rewrite W by (rewrite ?repeat_length; eauto). reflexivity.
  - now rewrite list_bad.
Qed.
Lemma cols_bad : forall l w, (npar <= length l)%nat -> length w <> npar -> length w <> 1%nat -> write_cols K npar l w = (l, false).
Proof. intros l w HL H H1. unfold write_cols. rewrite Nat.min_l by lia. now rewrite broadcast_bad. Qed.
Lemma dict_band_bad : forall (d : list (Z * (K + K * K))), (exists e, In e d /\ ~ key_ok npar (fst e)) ->
  exists e, In e (map (fun e => (fst e, band K (snd e))) d) /\ ~ key_ok npar (fst e).
Proof. intros d (e & He & B). exists (fst e, band K (snd e)). split; auto. apply in_map_iff. eauto. Qed.
Lemma dpar_bad_change : forall self x, full self -> dpar_bad x -> snd (change_one (make_array_dlst K spin npar) self x) = false.
Proof.
  intros self [d|l|p|v|] F B; cbn [dpar_bad] in B; try contradiction; unfold change_one; cbn [make_array_dlst].
  - pose proof (write_view_bad _ _ self (full_le _ _ F) (dict_band_bad d B)) as W. destruct (write_view npar self _) as [l ok]. cbn [fst snd option_map] in *. now rewrite W.
  - destruct l as [|a l]; auto. destruct B as [B|(B & B1)]; [discriminate|]. rewrite (cols_bad self (a :: l)) by auto using full_le. reflexivity.
  - now rewrite list_bad.
Qed.
Lemma dpar_bad_add : forall plus self x, full self -> dpar_bad x -> add_one (make_array_dlst K spin npar) plus self x = (self, false).
Proof.
  intros plus self [d|l|p|v|] F B; cbn [dpar_bad] in B; try contradiction; unfold add_one; cbn [make_array_dlst].
  - fold zz. pose proof (write_view_bad _ (map (fun e => (fst e, band K (snd e))) d) (repeat zz npar)) as W. rewrite repeat_length in W.
    specialize (W (le_n _) (dict_band_bad d B)). destruct (write_view npar (repeat zz npar) _) as [l ok]. cbn [fst snd option_map] in *. now rewrite W.
  - destruct l as [|a l]; auto. destruct B as [B|(B & B1)]; [discriminate|]. rewrite (cols_bad _ (a :: l)) by (rewrite ?repeat_length; auto). reflexivity.
  - now rewrite list_bad.
Qed.

(** A key of no lead, or a list that has neither one value for each lead nor (where numpy can repeat it) a single one, raises;
    an add that raises leaves the array it raised on, and those after it, as they were. *)
Theorem C44_rejects : forall s v c, stored s v -> call_bad c -> snd (lp_step K spin npar s c) = false /\
  forall m t d, c = CAdd K m t d -> let s' := fst (lp_step K spin npar s c) in
    (opt_bad par_bad m -> s' = s) /\ (opt_bad par_bad t -> lp_T K s' = lp_T K s /\ lp_D K s' = lp_D K s) /\ (opt_bad dpar_bad d -> lp_D K s' = lp_D K s).
Proof.
  intros s [[mu T] D] c ((F1 & _) & (F2 & _) & (F3 & _)) B.
  assert (T3 : forall f g m t d, (opt_bad par_bad m -> snd (opt_do f (lp_mu K s) m) = false) -> (opt_bad par_bad t -> snd (opt_do f (lp_T K s) t) = false) ->
     (opt_bad dpar_bad d -> snd (opt_do g (lp_D K s) d) = false) -> opt_bad par_bad m \/ opt_bad par_bad t \/ opt_bad dpar_bad d -> snd (three K f g s m t d) = false).
  { intros f g m t d H1 H2 H3 HB. unfold three.
    destruct (opt_do f (lp_mu K s) m) as [a [|]]; cbn [negb fst snd] in *; auto.
    destruct (opt_do f (lp_T K s) t) as [b [|]]; cbn [negb fst snd] in *; auto.
    destruct (opt_do g (lp_D K s) d) as [e [|]]; cbn [negb fst snd] in *; auto. destruct HB as [HB|[HB|HB]]; auto. }
  assert (AM : forall plus l m, full l -> opt_bad par_bad m -> opt_do (add_one (make_array K spin npar) plus) l m = (l, false)).
  { intros plus l [x|] F HB; [|destruct HB]. now apply par_bad_add. }
  assert (AD : forall plus l m, full l -> opt_bad dpar_bad m -> opt_do (add_one (make_array_dlst K spin npar) plus) l m = (l, false)).
  { intros plus l [x|] F HB; [|destruct HB]. now apply dpar_bad_add. }
  split.
  - destruct c as [m t d|m t d]; cbn [lp_step call_bad] in *; apply T3; auto; intros HB.
    + now rewrite AM.
    + now rewrite AM.
    + now rewrite AD.
    + destruct m; [|destruct HB]. now apply par_bad_change.
    + destruct t; [|destruct HB]. now apply par_bad_change.
    + destruct d; [|destruct HB]. now apply dpar_bad_change.
  - intros m t d ->. cbn [lp_step]. unfold three. split; [|split]; intros HB.
    + rewrite AM by auto. cbn [negb fst]. now destruct s.
    + destruct (opt_do _ (lp_mu K s) m) as [a [|]]; cbn [negb fst lp_T lp_D]; auto. rewrite (AM _ (lp_T K s) t) by auto. cbn [negb fst lp_T lp_D]. auto.
    + destruct (opt_do _ (lp_mu K s) m) as [a [|]]; cbn [negb fst lp_T lp_D]; auto.
      destruct (opt_do _ (lp_T K s) t) as [b [|]]; cbn [negb fst lp_T lp_D]; auto. rewrite AD by auto. reflexivity.
Qed.
End LeadProps.
Print Assumptions C44_values.
Print Assumptions C44_rejects.

(** *** examples: two leads per spin *)
Local Open Scope Z_scope.
Definition c44_calls : list (call ZRing) :=
  [ CChange ZRing (Some (PDict ZRing [(1, 7)])) None (Some (DDict ZRing [(0, inl 9); (-1, inr (-3, 4))]));
    CAdd ZRing (Some (PDict ZRing [(-2, 5)])) (Some (PNum ZRing 2)) None;
    CChange ZRing None (Some (PList ZRing [11; 12])) None;
    CAdd ZRing None None (Some (DNums ZRing [1; 1])) ].
Example C44_case_hyps : par_ok ZRing true 2 false (PList ZRing [1; 2]) /\ par_ok ZRing true 2 false (PNum ZRing 3) /\ dpar_ok ZRing true 2 false (DNum ZRing 60) /\
  Forall (call_ok ZRing true 2) c44_calls.
Proof.
  split; [now left|]. split; [exact I|]. split; [exact I|]. unfold c44_calls.
  assert (KO : forall A (d : list (Z * A)), forallb (fun e => (-2 <=? fst e) && (fst e <? 2)) d = true -> forall e, In e d -> key_ok 2 (fst e)).
  { intros A d H e He. rewrite forallb_forall in H. specialize (H e He). unfold key_ok. cbn. rewrite Bool.andb_true_iff, Z.leb_le, Z.ltb_lt in H. lia. }
  constructor; [split; [exact (KO _ [(1, 7)] eq_refl)|split; [exact I|exact (KO _ [(0, inl 9); (-1, inr (-3, 4))] eq_refl)]]|].
  constructor; [split; [exact (KO _ [(-2, 5)] eq_refl)|split; exact I]|].
  constructor; [split; [exact I|split; [now left|exact I]]|].
  constructor; [split; [exact I|split; [exact I|split; [discriminate|now left]]]|]. constructor.
Qed.
Definition c44_start (spin : bool) : LP ZRing :=
  match lp_init ZRing spin 2 (PList ZRing [1; 2]) (PNum ZRing 3) (DNum ZRing 60) with Some s => s | None => mkLP ZRing [] [] [] end.
Example C44_case : c44_start true = mkLP ZRing [1; 2; 1; 2] [3; 3; 3; 3] [(-60, 60); (-60, 60); (-60, 60); (-60, 60)] /\
  lp_run ZRing true 2 (c44_start true) c44_calls = (mkLP ZRing [6; 7; 6; 7] [11; 12; 11; 12] [(-10, 10); (-4, 5); (-10, 10); (-4, 5)], true) /\
  lp_run ZRing false 2 (c44_start false) c44_calls = (mkLP ZRing [6; 7] [11; 12] [(-10, 10); (-4, 5)], true).
Proof. repeat split. Qed.

(** *** outside the hypotheses *)
(** A change that raises is not undone: with a good key before the bad one the first half is changed and its spin partner is not. *)
Theorem C44_failed_change_refuted : exists c, lp_step ZRing true 2 (c44_start true) c = (mkLP ZRing [5; 2; 1; 2] [3; 3; 3; 3] [(-60, 60); (-60, 60); (-60, 60); (-60, 60)], false).
Proof. exists (CChange ZRing (Some (PDict ZRing [(0, 5); (2, 6)])) None None). reflexivity. Qed.
(** A tuple of chemical potentials silently sets them to zero. *)
Theorem C44_tuple_refuted : exists c, lp_step ZRing true 2 (c44_start true) c = (mkLP ZRing [0; 0; 0; 0] [3; 3; 3; 3] [(-60, 60); (-60, 60); (-60, 60); (-60, 60)], true).
Proof. exists (CChange ZRing (Some (POther ZRing)) None None). reflexivity. Qed.
(** A first list of the wrong length is stored as it is; it also makes later changes by name raise. *)
Theorem C44_init_length_refuted : exists s, lp_init ZRing true 2 (PList ZRing [1]) (PNum ZRing 3) (DNum ZRing 60) = Some s /\ lp_mu ZRing s = [1; 1] /\
  exists s', lp_init ZRing false 2 (PList ZRing [1]) (PNum ZRing 3) (DNum ZRing 60) = Some s' /\
  snd (lp_step ZRing false 2 s' (CChange ZRing (Some (PDict ZRing [(1, 5)])) None None)) = false.
Proof. eexists. split; [reflexivity|]. split; [reflexivity|]. eexists. split; reflexivity. Qed.
Print Assumptions C44_failed_change_refuted.
Print Assumptions C44_tuple_refuted.
Print Assumptions C44_init_length_refuted.
(** *** C44_rejects in a case: a key 2 and three values for two leads *)
Example C44_rejects_case : stored ZRing true 2 (c44_start true) (fun i => nth i [1; 2] 0, fun _ => 3, fun _ => (-60, 60)) /\
  call_bad ZRing true 2 (CAdd ZRing None (Some (PList ZRing [1; 2; 3])) None) /\ call_bad ZRing true 2 (CChange ZRing None None (Some (DDict ZRing [(2, inl 5)]))) /\
  lp_step ZRing true 2 (c44_start true) (CAdd ZRing (Some (PNum ZRing 1)) (Some (PList ZRing [1; 2; 3])) None) =
    (mkLP ZRing [2; 3; 2; 3] [3; 3; 3; 3] [(-60, 60); (-60, 60); (-60, 60); (-60, 60)], false).
Proof.
  split; [|split; [|split; [|reflexivity]]].
  - assert (G : forall i, (i < 2)%nat -> i = 0%nat \/ i = 1%nat) by lia.
    split; [|split]; (split; [reflexivity|]); intros i Hi; destruct (G i Hi) as [-> | ->]; split; intros; reflexivity.
  - right. left. cbn. intros [H|(_ & H & _)]; discriminate.
  - right. right. cbn. exists (2, inl 5). split; [now left|]. unfold key_ok. cbn. lia.
Qed.
