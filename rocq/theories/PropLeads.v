(** Properties C19 and C20: histories of add and change on the couplings to leads and phonon baths. *)
From Coq Require Import String List Arith Lia Bool ZArith Ring.
From Verif Require Import Base Bits Indexing IndexingProofs RemoveProofs PropIndexing CRing Fock Operators OperatorsProofs PropOperators Params ParamsProofs PropParams.
Import ListNotations.
Open Scope nat_scope.
Local Notation length := List.length.

Section Couplings.
Variable K : CRing.
Notation C := (Cx K).
Add Ring Cld : (rth C).
Local Open Scope rng_scope.
Variable isz : C -> bool.
Hypothesis isz_spec : forall x, isz x = true <-> x = 0.

(** *** one matrix filled by a builder *)
Section Generic.
Context {Key I S : Type}.
Variables (keq : forall a b : Key, {a = b} + {a <> b}) (ieq : forall a b : I, {a = b} + {a <> b}).
Variables (pre : nat -> option S) (step : nat -> S -> Key * C -> option (list (I * C))) (js : list nat).
Hypothesis step_add : forall j s k v w i, upd_sum K ieq i (step j s (k, v + w)) = upd_sum K ieq i (step j s (k, v)) + upd_sum K ieq i (step j s (k, w)).
Hypothesis step_ok : forall j s k v w, step j s (k, v) <> None -> step j s (k, w) <> None.
Local Notation fill := (builder K ieq pre step js).
Definition fresh (d : dict Key C) (m : I -> C) : Prop := exists m', fill d zeros = Some m' /\ forall i, m i = m' i.
Lemma fresh_step : forall d d' dd m m', fresh d m -> fill dd m = Some m' ->
  (forall D : Key -> C -> C, (forall k v w, D k (v + w) = D k v + D k w) -> total K D d' = total K D d + total K D dd) ->
  (forall k, In k (map fst d') -> In k (map fst d) \/ In k (map fst dd)) -> fresh d' m'.
Proof.
  intros d d' dd m m' (m0 & E0 & V0) E T KK.
  pose proof (proj1 (builder_ok K ieq pre step js step_ok d zeros) (ex_intro _ m0 E0)) as (P & F0).
  pose proof (proj1 (builder_ok K ieq pre step js step_ok dd m) (ex_intro _ m' E)) as (_ & F1).
  destruct (proj2 (builder_ok K ieq pre step js step_ok d' zeros)) as (m1 & E1).
  { split; auto. intros k Hk. destruct (KK k Hk); auto. }
  exists m1. split; auto. intros i. rewrite (builder_val _ _ _ _ _ _ _ _ E i), V0, (builder_val _ _ _ _ _ _ _ _ E0 i), (builder_val _ _ _ _ _ _ _ _ E1 i).
  pose proof (T (contrib K ieq pre step js i) (contrib_add K ieq pre step js step_add i)) as TT. unfold total in TT. rewrite TT. ring.
Qed.
Lemma fresh_add : forall d new m m', fresh d m -> fill new m = Some m' -> fresh (dadd K keq d new) m'.
Proof.
  intros d new m m' F E. apply (fresh_step d _ new m); auto.
  - intros D HD. apply dadd_total; auto.
  - intros k Hk. now apply dadd_keys in Hk.
Qed.
Lemma fresh_change : forall d new m m' d' dd, NoDup (map fst new) -> fresh d m -> dchange K isz keq true d new = (d', dd) ->
  fill dd m = Some m' -> fresh d' m'.
Proof.
  intros d new m m' d' dd ND F EC E. apply (fresh_step d _ dd m); auto.
  - intros D HD. pose proof (dchange_total K isz keq D HD new d ND) as T. now rewrite EC in T.
  - intros k Hk. pose proof (dchange_kept K isz keq new d k) as T. rewrite EC in T. exact (T Hk).
Qed.
End Generic.

(** *** what a caller names: dict, rows, or the entries of an array (zeros of an array only count for change) *)
Definition named {Key} (keq : forall a b : Key, {a = b} + {a <> b}) (inside : nat * nat * nat -> Key -> bool) (zeros_count : bool)
           (x : input Key C) (k : Key) : option C :=
  match x with
  | InDict l | InList l => row_of K keq l k
  | InArr sh f => if (inside sh k && (negb (isz (f k)) || zeros_count))%bool then Some (f k) else None
  | InOther => None
  end.
Definition tl_inside (sh : nat * nat * nat) (k : nat * nat) : bool := let '(nl, n, _) := sh in (Nat.ltb (fst k) nl && Nat.ltb (snd k) n)%bool.
Definition ve_inside (sh : nat * nat * nat) (k : nat * nat * nat) : bool :=
  let '(nb, n1, n2) := sh in let '(b, i, j) := k in (Nat.ltb b nb && Nat.ltb i n1 && Nat.ltb j n2)%bool.
(** with spin symmetry: the element for both spins; the leads l and l + nls, the orbitals i and i + nss are spin partners *)
Definition both_tl (nls nss : nat) (f : nat * nat -> option C) (k : nat * nat) : option C :=
  let '(l, i) := k in
  if (Nat.ltb l nls && Nat.ltb i nss)%bool then f (l, i)
  else if (Nat.leb nls l && Nat.leb nss i)%bool then f (l - nls, i - nss)%nat else None.
Definition both_ve (nss : nat) (f : nat * nat * nat -> option C) (k : nat * nat * nat) : option C :=
  let '(b, i, j) := k in
  if (Nat.ltb i nss && Nat.ltb j nss)%bool then f (b, i, j)
  else if (Nat.leb nss i && Nat.leb nss j)%bool then f (b, i - nss, j - nss)%nat else None.
Definition given_tl (spin : bool) (nls nss : nat) (zc : bool) (x : input (nat * nat) C) : nat * nat -> option C :=
  if spin then both_tl nls nss (named eq2 tl_inside zc x) else named eq2 tl_inside zc x.
Definition given_ve (spin : bool) (nss : nat) (zc : bool) (x : input (nat * nat * nat) C) : nat * nat * nat -> option C :=
  if spin then both_ve nss (named eq3 ve_inside zc x) else named eq3 ve_inside zc x.
Definition only {Key} (ok : Key -> Prop) (f : Key -> option C) : Prop := forall k v, f k = Some v -> ok k.

Lemma list_prod_nodup : forall A B (l : list A) (l' : list B), NoDup l -> NoDup l' -> NoDup (list_prod l l').
Proof.
  intros A B l l' N N'. induction N as [|x l Hx N IH]; [constructor|]. cbn [list_prod]. apply NoDup_app_intro; auto.
  - apply FinFun.Injective_map_NoDup; [intros a b E; congruence|auto].
  - intros [a b] H1 H2. apply in_map_iff in H1. destruct H1 as (y & E & _). injection E as -> ->. apply in_prod_iff in H2. tauto.
Qed.
Lemma plain_get : forall Key (keq : forall a b : Key, {a = b} + {a <> b}) (keys : list Key) inside az x sh f k, NoDup keys ->
  (forall k, In k keys <-> inside sh k = true) -> wf_input K x -> (forall sh' f', x = InArr sh' f' -> sh' = sh /\ f' = f) ->
  dget keq match x with InDict d => d | InList l => dupdate keq [] l
           | InArr _ _ => dupdate keq [] (arr_items K isz keys f az) | InOther => [] end k = named keq inside az x k.
Proof.
  intros Key keq keys inside az x sh f k ND HI W HX. destruct x as [d|l|sh' f'|]; cbn [named]; auto.
  - rewrite row_dget. symmetry. apply (last_of_nodup keq d k W).
  - rewrite row_dget. rewrite dupdate_get. unfold last_of. now destruct (dget keq (rev l) k).
  - destruct (HX _ _ eq_refl) as (-> & ->). rewrite arr_items_get by auto. destruct (in_dec keq k keys) as [H|H].
    + apply HI in H. now rewrite H.
    + destruct (inside sh k) eqn:E; auto. exfalso. apply H. now apply HI.
Qed.
Definition tl_plain (az : bool) (x : input (nat * nat) C) : dict (nat * nat) C :=
  match x with InDict d => d | InList l => dupdate eq2 [] l | InArr (nl, n, _) f => dupdate eq2 [] (arr_items K isz (tl_keys nl n) f az) | InOther => [] end.
Definition ve_plain (az : bool) (x : input (nat * nat * nat) C) : dict (nat * nat * nat) C :=
  match x with InDict d => d | InList l => dupdate eq3 [] l | InArr (nb, n1, n2) f => dupdate eq3 [] (arr_items K isz (ve_keys nb n1 n2) f az) | InOther => [] end.
Lemma tl_plain_get : forall az x k, wf_input K x -> dget eq2 (tl_plain az x) k = named eq2 tl_inside az x k.
Proof.
  intros az x k W. destruct x as [d|l|[[nl n] c] f|]; auto.
  - apply (plain_get _ eq2 [] (fun _ _ => false) az (InDict d) (0, 0, 0)%nat (fun _ => 0) k); auto; try constructor; try discriminate; intros [].
  - apply (plain_get _ eq2 [] (fun _ _ => false) az (InList l) (0, 0, 0)%nat (fun _ => 0) k); auto; try constructor; try discriminate; intros [].
  - apply (plain_get _ eq2 (tl_keys nl n) tl_inside az (InArr (nl, n, c) f) (nl, n, c) f k); auto.
    + apply list_prod_nodup; apply seq_NoDup.
    + intros [a b]. unfold tl_keys. cbn [tl_inside fst snd]. rewrite in_prod_iff, !in_seq, Bool.andb_true_iff, !Nat.ltb_lt. lia.
    + intros sh' f' E. now injection E as <- <-.
Qed.
Lemma ve_plain_get : forall az x k, wf_input K x -> dget eq3 (ve_plain az x) k = named eq3 ve_inside az x k.
Proof.
  intros az x k W. destruct x as [d|l|[[nb n1] n2] f|]; auto.
  - apply (plain_get _ eq3 [] (fun _ _ => false) az (InDict d) (0, 0, 0)%nat (fun _ => 0) k); auto; try constructor; try discriminate; intros [].
  - apply (plain_get _ eq3 [] (fun _ _ => false) az (InList l) (0, 0, 0)%nat (fun _ => 0) k); auto; try constructor; try discriminate; intros [].
  - apply (plain_get _ eq3 (ve_keys nb n1 n2) ve_inside az (InArr (nb, n1, n2) f) (nb, n1, n2) f k); auto.
    + apply list_prod_nodup; [apply list_prod_nodup|]; apply seq_NoDup.
    + intros [[a b] d]. unfold ve_keys. cbn [ve_inside fst snd]. rewrite !in_prod_iff, !in_seq, !Bool.andb_true_iff, !Nat.ltb_lt. lia.
    + intros sh' f' E. now injection E as <- <-.
Qed.
Lemma tl_plain_nodup : forall az x, wf_input K x -> NoDup (map fst (tl_plain az x)).
Proof. intros az [d|l|[[a b] c] f|] W; cbn [tl_plain]; try exact W; try apply dupdate_nodup; constructor. Qed.
Lemma ve_plain_nodup : forall az x, wf_input K x -> NoDup (map fst (ve_plain az x)).
Proof. intros az [d|l|[[a b] c] f|] W; cbn [ve_plain]; try exact W; try apply dupdate_nodup; constructor. Qed.
Lemma tl_dict_plain : forall spin nls nss az x, make_tleads_dict K isz spin nls nss az x =
  if spin then spin_double K eq2 (fun k => (fst k + nls, snd k + nss)%nat) (tl_plain az x) else tl_plain az x.
Proof. intros spin nls nss az [d|l|[[a b] c] f|]; cbn; now destruct spin. Qed.
Lemma ve_dict_plain : forall spin nss az x, make_velph_dict K isz spin nss az x =
  if spin then spin_double K eq3 (fun k => let '(j1, j2, j3) := k in (j1, j2 + nss, j3 + nss)%nat) (ve_plain az x) else ve_plain az x.
Proof. intros spin nss az [d|l|[[a b] c] f|]; cbn; now destruct spin. Qed.
Lemma tl_nodup : forall spin nls nss az x, wf_input K x -> NoDup (map fst (make_tleads_dict K isz spin nls nss az x)).
Proof. intros. rewrite tl_dict_plain. destruct spin; [apply spin_double_nodup|]; now apply tl_plain_nodup. Qed.
Lemma ve_nodup : forall spin nss az x, wf_input K x -> NoDup (map fst (make_velph_dict K isz spin nss az x)).
Proof. intros. rewrite ve_dict_plain. destruct spin; [apply spin_double_nodup|]; now apply ve_plain_nodup. Qed.

Lemma tl_dict_get : forall spin nls nss az x k, wf_input K x ->
  (spin = true -> only (fun k => fst k < nls /\ snd k < nss)%nat (named eq2 tl_inside az x)) ->
  dget eq2 (make_tleads_dict K isz spin nls nss az x) k = given_tl spin nls nss az x k.
Proof.
  intros spin nls nss az x k W O. rewrite tl_dict_plain. unfold given_tl. destruct spin; [|now apply tl_plain_get]. specialize (O eq_refl).
  rewrite (spin_double_get K eq2 (fun k => (fst k + nls, snd k + nss)%nat)
    (fun k => if (Nat.leb nls (fst k) && Nat.leb nss (snd k))%bool then Some (fst k - nls, snd k - nss)%nat else None)).
  2: now apply tl_plain_nodup.
  2: { intros [i j] [i0 j0]; cbn [fst snd]; destruct (Nat.leb_spec nls i), (Nat.leb_spec nss j); cbn [andb]; (split; intros E; [try discriminate E; injection E as <- <-; f_equal; lia|injection E as -> ->; try lia; f_equal; f_equal; lia]). }
  rewrite !tl_plain_get by auto. destruct k as [i j]. cbn [fst snd both_tl].
  assert (Z : ~ (i < nls /\ j < nss)%nat -> named eq2 tl_inside az x (i, j) = None).
  { intros H. destruct (named eq2 tl_inside az x (i, j)) as [v|] eqn:E; auto. exfalso. apply H. apply (O _ _ E). }
  destruct (Nat.leb_spec nls i), (Nat.leb_spec nss j), (Nat.ltb_spec i nls), (Nat.ltb_spec j nss); cbn [andb]; try lia; auto;
    try (rewrite Z by lia; auto). rewrite tl_plain_get by auto. now destruct (named eq2 tl_inside az x (i - nls, j - nss)%nat).
Qed.
Lemma ve_dict_get : forall spin nss az x k, wf_input K x ->
  (spin = true -> only (fun k => snd (fst k) < nss /\ snd k < nss)%nat (named eq3 ve_inside az x)) ->
  dget eq3 (make_velph_dict K isz spin nss az x) k = given_ve spin nss az x k.
Proof.
  intros spin nss az x k W O. rewrite ve_dict_plain. unfold given_ve. destruct spin; [|now apply ve_plain_get]. specialize (O eq_refl).
  rewrite (spin_double_get K eq3 (fun k => let '(j1, j2, j3) := k in (j1, j2 + nss, j3 + nss)%nat)
    (fun k => let '(b, i, j) := k in if (Nat.leb nss i && Nat.leb nss j)%bool then Some (b, i - nss, j - nss)%nat else None)).
  2: now apply ve_plain_nodup.
  2: { intros [[b i] j] [[b0 i0] j0]; cbn [fst snd]; destruct (Nat.leb_spec nss i), (Nat.leb_spec nss j); cbn [andb]; (split; intros E; [try discriminate E; injection E as <- <- <-; repeat f_equal; lia|injection E as -> -> ->; try lia; repeat f_equal; lia]). }
  rewrite !ve_plain_get by auto. destruct k as [[b i] j]. cbn [fst snd both_ve].
  assert (Z : ~ (i < nss /\ j < nss)%nat -> named eq3 ve_inside az x (b, i, j) = None).
  { intros H. destruct (named eq3 ve_inside az x (b, i, j)) as [v|] eqn:E; auto. exfalso. apply H. apply (O _ _ E). }
  destruct (Nat.leb_spec nss i), (Nat.leb_spec nss j), (Nat.ltb_spec i nss), (Nat.ltb_spec j nss); cbn [andb]; try lia; auto;
    try (rewrite Z by lia; auto). rewrite ve_plain_get by auto. now destruct (named eq3 ve_inside az x (b, i - nss, j - nss)%nat).
Qed.

Lemma reached_remove : forall n name si lst, (1 <= n)%nat -> si_reached n name si ->
  (ix_of name n = IxCharge \/ ix_of name n = IxSz) -> (forall k, In k lst -> (k < 2 ^ n)%nat) ->
  exists si', remove_fock_states si lst = Some si' /\ si_reached n name si'.
Proof.
  intros n name si lst Hn (rops & RS & _) Hix Hl.
  assert (Hk : forall k, In k (concat (rops ++ [lst])) -> (k < 2 ^ n)%nat).
  { intros k Hk. rewrite concat_app, in_app_iff in Hk. destruct Hk as [Hk|Hk]; [now apply RS|]. cbn in Hk. rewrite app_nil_r in Hk. auto. }
  destruct (C06_remove_history n name (rops ++ [lst]) Hn Hix Hk) as (si' & E & _).
  assert (RM : forall ops s, remove_many s (ops ++ [lst]) = match remove_many s ops with None => None | Some s' => remove_fock_states s' lst end).
  { induction ops as [|o ops IH]; cbn; intros s0; [destruct (remove_fock_states s0 lst); auto|]. destruct (remove_fock_states s0 o); auto. }
  assert (RS' : reachable_si n name (rops ++ [lst]) si') by (repeat split; auto; tauto).
  rewrite RM in E. destruct RS as (_ & _ & E0 & _). rewrite E0 in E. rewrite E. exists si'. split; auto. exists (rops ++ [lst]). auto.
Qed.
Lemma init_reached : forall n name, (1 <= n)%nat -> si_reached n name (si_init n name).
Proof. intros n name Hn. exists []. split; [|now left]. repeat split; auto. intros k []. Qed.

(** *** C19 *)
Section Leads.
Variables (spin : bool) (nss : nat).
Local Notation LT := (LT K).
Local Notation lop := (lop K).
Local Notation nls_of := (nls_of spin).
Local Notation lt_init := (lt_init K isz spin nss).
Local Notation lt_step := (lt_step K isz spin nss).
Local Notation lt_run := (lt_run K isz spin nss).
(** Tba0 is the matrix built from zero with the stored tleads *)
Definition lt_fresh (l : LT) : Prop :=
  exists m, construct_Tba K (lt_si K l) (lt_nl K l) (lt_tl K l) zeros = Some m /\ forall i, lt_T0 K l i = m i.
(** tleads_array has the stored values and zeros elsewhere *)
Definition lt_arr_ok (l : LT) : Prop := forall k, lt_arr K l k = or0 K (dget eq2 (lt_tl K l) k).
(** arguments are not the stored dictionary itself, dicts have each key once, update_Tba0 is used without spin symmetry *)
Definition wf_lop (o : lop) : Prop :=
  match o with LAdd _ a | LChange _ a => wf_arg K a | LRemove _ _ => True | LUpdate _ _ d => spin = false /\ NoDup (map fst d) end.
Lemma tl_arg_nodup : forall self nl az a, wf_arg K a -> NoDup (map fst (tl_arg K isz spin nss self nl az a)).
Proof. intros self nl az [|x|] W; cbn [tl_arg]; [constructor|now apply tl_nodup|destruct W]. Qed.
Lemma wf_seen : forall Key (a : arg K Key) g s, wf_arg K a -> seen K spin a g s = g.
Proof. intros Key [|x|] g s X; try reflexivity; destruct X. Qed.
Lemma arr_val : forall nl n d arr, NoDup (map fst d) -> make_tleads_array K nl n d = Some arr -> forall k, arr k = or0 K (dget eq2 d k).
Proof.
  intros nl n d arr ND H k. unfold make_tleads_array in H. destruct (forallb _ d); [|discriminate]. injection H as <-.
  assert (G : forall (l : dict (nat * nat) C) (a : nat * nat -> C), NoDup (map fst l) -> fold_left (fun a e => fun i => if eq2 i (fst e) then snd e else a i) l a k =
            match dget eq2 l k with Some v => v | None => a k end).
  { induction l as [|[k' v] l IH]; intros a N; [reflexivity|]. cbn [map fst] in N. inversion N as [|x xs N1 N2]; subst.
    cbn [fold_left fst snd dget]. rewrite IH by auto. destruct (eq2 k k') as [->|]; auto.
    replace (dget eq2 l k') with (@None C) by (symmetry; now apply dget_none). reflexivity. }
  rewrite G by auto. unfold or0. reflexivity.
Qed.
Lemma arr_some : forall nl n d, (forall k, In k (map fst d) -> (fst k < nl /\ snd k < n)%nat) -> exists arr, make_tleads_array K nl n d = Some arr.
Proof.
  intros nl n d H. unfold make_tleads_array. replace (forallb _ d) with true; [eauto|]. symmetry. apply forallb_forall.
  intros e He. destruct (H (fst e)) as (A & B); [now apply in_map|]. apply Nat.ltb_lt in A, B. now rewrite A, B.
Qed.
Lemma lt_step_fresh : forall o l l', wf_lop o -> lt_step l o = Some l' -> NoDup (map fst (lt_tl K l)) -> lt_fresh l ->
  NoDup (map fst (lt_tl K l')) /\ lt_fresh l'.
Proof.
  intros o l l' W H ND F. destruct o as [a|a|lst|nl d]; cbn [Params.lt_step wf_lop] in *.
  - assert (H' : l = l' \/ (exists m, construct_Tba K (lt_si K l) (lt_nl K l) (tl_arg K isz spin nss (lt_tl K l) (lt_nl K l) false a) (lt_T0 K l) = Some m /\
       exists arr, l' = mkLT K (lt_si K l) (lt_nl K l) (dadd K eq2 (lt_tl K l) (tl_arg K isz spin nss (lt_tl K l) (lt_nl K l) false a)) arr m)).
    { unfold lt_add in H. rewrite wf_seen in H by auto. destruct a as [|x|]; [left; congruence| |destruct W]. right.
      destruct (make_tleads_array _ _ _ _) as [arr|]; [|discriminate]. destruct (construct_Tba _ _ _ _ _) as [m|]; [|discriminate].
      injection H as <-. exists m. split; auto. exists arr. reflexivity. }
    destruct H' as [<-|(m & E & arr & ->)]; auto. cbn [lt_tl lt_si lt_nl lt_T0]. split; [now apply dadd_nodup|].
    unfold lt_fresh. cbn [lt_tl lt_si lt_nl lt_T0].
    apply (fresh_add eq2 eq3 (get_state (lt_si K l)) (tba_step K (lt_si K l) (lt_nl K l)) (seq 0 (si_nmany (lt_si K l))) (tba_step_add K (lt_si K l) (lt_nl K l))
      (tba_step_ok K (lt_si K l) (lt_nl K l)) (lt_tl K l) (tl_arg K isz spin nss (lt_tl K l) (lt_nl K l) false a) (lt_T0 K l) m F E).
  - unfold lt_change in H. destruct a as [|x|]; [injection H as <-; auto| |destruct W].
    pose proof (tl_arg_nodup (lt_tl K l) (lt_nl K l) true _ W) as N1.
    destruct (dchange K isz eq2 true (lt_tl K l) _) as [tl dd] eqn:EC. destruct (construct_Tba K _ _ dd _) as [m|] eqn:E; [|discriminate].
    injection H as <-. cbn [lt_tl]. split.
    + pose proof (dchange_nodup K isz eq2 (tl_arg K isz spin nss (lt_tl K l) (lt_nl K l) true (AFresh K _ x)) (lt_tl K l) ND) as T. now rewrite EC in T.
    + unfold lt_fresh. cbn [lt_tl lt_si lt_nl lt_T0].
      apply (fresh_change eq2 eq3 (get_state (lt_si K l)) (tba_step K (lt_si K l) (lt_nl K l)) (seq 0 (si_nmany (lt_si K l))) (tba_step_add K (lt_si K l) (lt_nl K l))
        (tba_step_ok K (lt_si K l) (lt_nl K l)) (lt_tl K l) _ (lt_T0 K l) m tl dd N1 F EC E).
  - unfold lt_remove in H. destruct (remove_fock_states _ lst) as [si|]; [|discriminate]. unfold lt_coupling in H.
    destruct (construct_Tba _ _ _ _ _) as [m|] eqn:E; [|discriminate]. injection H as <-. split; [exact ND|]. exists m. auto.
  - destruct W as (Hs & W). unfold lt_update in H. destruct (make_tleads_array _ _ _ _) as [arr|]; [|discriminate].
    destruct (construct_Tba _ _ _ _ _) as [m|] eqn:E; [|discriminate]. injection H as <-. cbn [lt_tl]. rewrite tl_dict_plain, Hs. cbn [tl_plain].
    split; [exact W|]. exists m. cbn [lt_si lt_nl lt_tl lt_T0]. auto.
Qed.
Lemma lt_init_fresh : forall si nl x l, wf_input K x -> lt_init si nl x = Some l -> NoDup (map fst (lt_tl K l)) /\ lt_fresh l.
Proof.
  intros si nl x l W H. unfold Params.lt_init in H. destruct (make_tleads_array _ _ _ _) as [arr|]; [|discriminate]. unfold lt_coupling in H.
  destruct (construct_Tba _ _ _ _ _) as [m|] eqn:E; [|discriminate]. injection H as <-. split; [now apply tl_nodup|]. exists m. auto.
Qed.

(** Every history of successful calls. *)
Theorem C19_fresh : forall si nl x os l0 l, wf_input K x -> Forall wf_lop os -> lt_init si nl x = Some l0 -> lt_run l0 os = Some l -> lt_fresh l.
Proof.
  intros si nl x os l0 l W WO E0 E. destruct (lt_init_fresh si nl x l0 W E0) as (N & F). clear E0. revert l0 N F E.
  induction WO as [|o os Wo _ IH]; intros l0 N F E; cbn in E; [injection E as <-; auto|].
  destruct (lt_step l0 o) as [l1|] eqn:E1; [|discriminate]. destruct (lt_step_fresh o l0 l1 Wo E1 N F). eauto.
Qed.

(** tleads_array: made anew by __init__, add and update_Tba0, but not by change *)
Definition arr_current (b : bool) (o : lop) : bool :=
  match o with
  | LAdd _ (ANone _ _) | LChange _ (ANone _ _) | LRemove _ _ => b
  | LAdd _ _ | LUpdate _ _ _ => true
  | LChange _ _ => false
  end.
Lemma lt_step_arr : forall o l l' b, wf_lop o -> lt_step l o = Some l' -> NoDup (map fst (lt_tl K l)) ->
  (b = true -> lt_arr_ok l) -> arr_current b o = true -> lt_arr_ok l'.
Proof.
  intros o l l' b W H ND A Hb. destruct o as [a|a|lst|nl d]; cbn [Params.lt_step wf_lop arr_current] in *.
  - unfold lt_add in H. rewrite wf_seen in H by auto. destruct a as [|x|]; [injection H as <-; auto| |destruct W].
    destruct (make_tleads_array _ _ _ _) as [arr|] eqn:EA; [|discriminate]. destruct (construct_Tba _ _ _ _ _) as [m|]; [|discriminate].
    injection H as <-. unfold lt_arr_ok. cbn [lt_arr lt_tl]. apply (arr_val _ _ _ _ (dadd_nodup K eq2 _ _ ND) EA).
  - destruct a as [|x|]; [cbn in H; injection H as <-; auto|discriminate|destruct W].
  - unfold lt_remove in H. destruct (remove_fock_states _ lst) as [si|]; [|discriminate]. unfold lt_coupling in H.
    destruct (construct_Tba _ _ _ _ _) as [m|] eqn:E; [|discriminate]. injection H as <-. unfold lt_arr_ok. cbn [lt_arr lt_tl]. now apply A.
  - destruct W as (Hs & W). unfold lt_update in H. destruct (make_tleads_array _ _ _ _) as [arr|] eqn:EA; [|discriminate].
    destruct (construct_Tba _ _ _ _ _) as [m|] eqn:E; [|discriminate]. injection H as <-. unfold lt_arr_ok. cbn [lt_arr lt_tl].
    rewrite tl_dict_plain, Hs. cbn [tl_plain]. apply (arr_val _ _ _ _ W EA).
Qed.
Theorem C19_array : forall si nl x os l0 l, wf_input K x -> Forall wf_lop os -> lt_init si nl x = Some l0 -> lt_run l0 os = Some l ->
  fold_left arr_current os true = true -> lt_arr_ok l.
Proof.
  intros si nl x os l0 l W WO E0 E HB. destruct (lt_init_fresh si nl x l0 W E0) as (N & F).
  assert (A : true = true -> lt_arr_ok l0).
  { intros _. unfold Params.lt_init in E0. destruct (make_tleads_array _ _ _ _) as [arr|] eqn:EA; [|discriminate]. unfold lt_coupling in E0.
    destruct (construct_Tba _ _ _ _ _) as [m|]; [|discriminate]. injection E0 as <-. exact (arr_val _ _ _ _ N EA). }
  clear E0. revert A HB. generalize true at 1 3. intros b A HB. revert b l0 N F E A HB.
  induction WO as [|o os Wo _ IH]; intros b l0 N F E A HB; cbn in E; [injection E as <-; auto|].
  destruct (lt_step l0 o) as [l1|] eqn:E1; [|discriminate]. destruct (lt_step_fresh o l0 l1 Wo E1 N F) as (N1 & F1).
  cbn [fold_left] in HB. apply (IH (arr_current b o) l1); auto. intros Hc. apply (lt_step_arr o l0 l1 b Wo E1 N A Hc).
Qed.

(** The stored values, with the current number of leads: add adds exactly to the named amplitudes, change sets exactly the
    named ones, update_Tba0 replaces all. *)
Definition tl_after (st : nat * (nat * nat -> C)) (o : lop) : nat * (nat * nat -> C) :=
  let '(nl, f) := st in
  match o with
  | LAdd _ a => (nl, fun k => f k + or0 K (arg_of K (given_tl spin (nls_of nl) nss false) a k))
  | LChange _ a => (nl, fun k => match arg_of K (given_tl spin (nls_of nl) nss true) a k with Some v => v | None => f k end)
  | LRemove _ _ => st
  | LUpdate _ nl' d => (nl', fun k => or0 K (row_of K eq2 d k))
  end.
Definition tl_only (nl : nat) (az : bool) (x : input (nat * nat) C) : Prop :=
  spin = true -> only (fun k => fst k < nls_of nl /\ snd k < nss)%nat (named eq2 tl_inside az x).
Definition tl_op_ok (nl : nat) (o : lop) : Prop :=
  match o with LAdd _ (AFresh _ _ x) => tl_only nl false x | LChange _ (AFresh _ _ x) => tl_only nl true x | _ => True end.
Definition next_nl (nl : nat) (o : lop) : nat := match o with LUpdate _ nl' _ => nl' | _ => nl end.
Fixpoint tl_ops_ok (nl : nat) (os : list lop) : Prop := match os with [] => True | o :: os => tl_op_ok nl o /\ tl_ops_ok (next_nl nl o) os end.
Lemma lt_step_val : forall o l l' f, wf_lop o -> tl_op_ok (lt_nl K l) o -> lt_step l o = Some l' -> (forall k, val K eq2 (lt_tl K l) k = f k) ->
  lt_nl K l' = next_nl (lt_nl K l) o /\ fst (tl_after (lt_nl K l, f) o) = lt_nl K l' /\ forall k, val K eq2 (lt_tl K l') k = snd (tl_after (lt_nl K l, f) o) k.
Proof.
  intros o l l' f W OK H V. destruct o as [a|a|lst|nl d]; cbn [Params.lt_step wf_lop tl_after fst snd next_nl tl_op_ok] in *.
  - unfold lt_add in H. rewrite wf_seen in H by auto. destruct a as [|x|]; [|..|destruct W].
    { injection H as <-. repeat split; auto. intros k. rewrite V. cbn [arg_of or0]. ring. }
    destruct (make_tleads_array _ _ _ _) as [arr|] eqn:EA; [|discriminate]. destruct (construct_Tba _ _ _ _ _) as [m|]; [|discriminate].
    injection H as <-. cbn [lt_nl lt_tl]. repeat split; auto. intros k. rewrite dadd_val by now apply tl_nodup. rewrite V. f_equal.
    cbn [tl_arg arg_of]. unfold val. rewrite tl_dict_get by auto. reflexivity.
  - unfold lt_change in H. destruct a as [|x|]; [injection H as <-; auto| |destruct W].
    pose proof (fun k => dchange_val K isz isz_spec eq2 _ (lt_tl K l) k (tl_arg_nodup (lt_tl K l) (lt_nl K l) true _ W)) as DV.
    destruct (dchange K isz eq2 true (lt_tl K l) _) as [tl dd] eqn:EC. destruct (construct_Tba K _ _ dd _) as [m|] eqn:E; [|discriminate].
    injection H as <-. cbn [lt_nl lt_tl fst] in *. repeat split; auto. intros k. rewrite DV, V. cbn [tl_arg arg_of]. now rewrite tl_dict_get by auto.
  - unfold lt_remove in H. destruct (remove_fock_states _ lst) as [si|]; [|discriminate]. unfold lt_coupling in H.
    destruct (construct_Tba _ _ _ _ _) as [m|] eqn:E; [|discriminate]. injection H as <-. auto.
  - destruct W as (Hs & W). unfold lt_update in H. destruct (make_tleads_array _ _ _ _) as [arr|] eqn:EA; [|discriminate].
    destruct (construct_Tba _ _ _ _ _) as [m|] eqn:E; [|discriminate]. injection H as <-. cbn [lt_nl lt_tl]. repeat split; auto.
    intros k. rewrite tl_dict_plain, Hs. cbn [tl_plain]. rewrite row_dget. unfold val, or0.
    pose proof (last_of_nodup eq2 d k W) as X. unfold last_of in X. now rewrite X.
Qed.
Theorem C19_values : forall si nl x os l0 l, wf_input K x -> Forall wf_lop os -> lt_init si nl x = Some l0 -> lt_run l0 os = Some l ->
  tl_only nl false x -> tl_ops_ok nl os ->
  forall k, val K eq2 (lt_tl K l) k = snd (fold_left tl_after os (nl, fun k => or0 K (given_tl spin (nls_of nl) nss false x k))) k.
Proof.
  intros si nl x os l0 l W WO E0 E O OK.
  assert (A : lt_nl K l0 = nl /\ forall k, val K eq2 (lt_tl K l0) k = or0 K (given_tl spin (nls_of nl) nss false x k)).
  { unfold Params.lt_init in E0. destruct (make_tleads_array _ _ _ _) as [arr|] eqn:EA; [|discriminate]. unfold lt_coupling in E0.
    destruct (construct_Tba _ _ _ _ _) as [m|]; [|discriminate]. injection E0 as <-. cbn [lt_nl lt_tl]. split; auto. intros k.
    unfold val. rewrite tl_dict_get by auto. reflexivity. }
  clear E0 W O. destruct A as (A1 & A2).
  set (f := fun k => or0 K (given_tl spin (nls_of nl) nss false x k)) in *. change (forall k, val K eq2 (lt_tl K l0) k = f k) in A2. clearbody f.
  subst nl. revert f l0 E A2 OK. induction WO as [|o os Wo _ IH]; intros f l0 E A2 OK; cbn in E; [injection E as <-; exact A2|].
  destruct (lt_step l0 o) as [l1|] eqn:E1; [|discriminate]. destruct OK as (OK1 & OK2).
  destruct (lt_step_val o l0 l1 f Wo OK1 E1 A2) as (B1 & B2 & B3). cbn [fold_left]. intros k.
  rewrite (IH (snd (tl_after (lt_nl K l0, f) o)) l1); auto; [|now rewrite B1].
  rewrite <- B2. now rewrite <- surjective_pairing.
Qed.
(** Repeating a change has no effect. *)
Theorem C19_change_twice : forall l a l', wf_arg K a -> lt_step l (LChange K a) = Some l' ->
  exists l'', lt_step l' (LChange K a) = Some l'' /\ lt_tl K l'' = lt_tl K l' /\ forall i, lt_T0 K l'' i = lt_T0 K l' i.
Proof.
  intros l a l' W H. cbn [Params.lt_step] in *. unfold lt_change in *. destruct a as [|x|]; [injection H as <-; eauto| |destruct W].
  pose proof (tl_arg_nodup (lt_tl K l) (lt_nl K l) true _ W) as N.
  pose proof (fun k => dchange_val K isz isz_spec eq2 _ (lt_tl K l) k N) as DV.
  assert (S : tl_arg K isz spin nss (lt_tl K l') (lt_nl K l') true (AFresh K _ x) = tl_arg K isz spin nss (lt_tl K l) (lt_nl K l) true (AFresh K _ x)).
  { destruct (dchange K isz eq2 true (lt_tl K l) _) as [tl dd] eqn:EC. destruct (construct_Tba K _ _ dd _) as [m|] eqn:E; [|discriminate].
    now injection H as <-. }
  rewrite S. set (g := tl_arg K isz spin nss (lt_tl K l) (lt_nl K l) true (AFresh K _ x)) in *. clearbody g.
  destruct (dchange K isz eq2 true (lt_tl K l) g) as [tl dd] eqn:EC. destruct (construct_Tba K _ _ dd _) as [m|] eqn:E; [|discriminate].
  injection H as <-. cbn [lt_tl lt_si lt_nl lt_T0 fst] in *.
  rewrite (dchange_nothing K isz isz_spec eq2 g tl). 2: { intros k w Hin. rewrite DV. apply dget_nodup with (keq := eq2) in Hin; auto. now rewrite Hin. }
  rewrite tba_builder in E. pose proof (proj1 (builder_ok K eq3 _ _ _ (tba_step_ok K (lt_si K l) (lt_nl K l)) _ _) (ex_intro _ m E)) as (P & _).
  destruct (proj2 (builder_ok K eq3 (get_state (lt_si K l)) (tba_step K (lt_si K l) (lt_nl K l)) (seq 0 (si_nmany (lt_si K l))) (tba_step_ok K (lt_si K l) (lt_nl K l)) [] m)) as (m2 & E2).
  { split; [exact P|]. intros k []. }
  rewrite tba_builder, E2. eexists. split; [reflexivity|]. cbn [lt_tl lt_T0]. split; auto. intros i.
  rewrite (builder_val _ _ _ _ _ _ _ _ E2 i). cbn [rsum map fold_right]. ring.
Qed.

(** Calls with existing leads and levels never raise, and Tba0 is the second-quantised tunnelling operator of the stored tleads. *)
Section Operator.
Variables (n : nat) (name : string).
Hypothesis Hn : (1 <= n)%nat.
Definition in_leads (nl : nat) (k : nat * nat) : Prop := (fst k < nl /\ snd k < n)%nat.
Definition lop_keys_ok (nl : nat) (o : lop) : Prop :=
  match o with
  | LAdd _ a => forall k, In k (map fst (tl_arg K isz spin nss [] nl false a)) -> in_leads nl k
  | LChange _ a => forall k, In k (map fst (tl_arg K isz spin nss [] nl true a)) -> in_leads nl k
  | LRemove _ lst => (ix_of name n = IxCharge \/ ix_of name n = IxSz) /\ forall k, In k lst -> (k < 2 ^ n)%nat
  | LUpdate _ nl' d => forall k, In k (map fst d) -> in_leads nl' k
  end.
Fixpoint lops_keys_ok (nl : nat) (os : list lop) : Prop :=
  match os with [] => True | o :: os => lop_keys_ok nl o /\ lops_keys_ok (next_nl nl o) os end.
Lemma tba_some : forall si nl d T, si_reached n name si -> (forall k, In k (map fst d) -> in_leads nl k) ->
  exists T', construct_Tba K si nl d T = Some T' /\
    forall l k' k s' s, (k' < si_nmany si)%nat -> (k < si_nmany si)%nat -> get_state si k' = Some s' -> get_state si k = Some s ->
      T' (l, k', k) = T (l, k', k) + mel C (tunnel_op K d l) s' s.
Proof.
  intros si nl d T (rops & RS & _) KD. apply (C13_tunnelling K n name rops si nl d T RS).
  intros l i t Hin. apply (KD (l, i)). apply in_map_iff. exists ((l, i), t). auto.
Qed.
Definition good_lt (l : LT) : Prop := si_reached n name (lt_si K l) /\ forall k, In k (map fst (lt_tl K l)) -> in_leads (lt_nl K l) k.
Lemma lt_step_good : forall o l, wf_lop o -> lop_keys_ok (lt_nl K l) o -> good_lt l ->
  exists l', lt_step l o = Some l' /\ good_lt l' /\ lt_nl K l' = next_nl (lt_nl K l) o.
Proof.
  intros o l W KO (R & KL). destruct (reached_shape _ _ _ R) as (_ & EN & _).
  destruct o as [a|a|lst|nl d]; cbn [Params.lt_step wf_lop lop_keys_ok next_nl] in *.
  - unfold lt_add. rewrite wf_seen by auto. destruct a as [|x|]; [exists l; repeat split; auto; now apply KL| |destruct W]. cbn [tl_arg] in *.
    set (g := make_tleads_dict K isz spin (nls_of (lt_nl K l)) nss false x) in *.
    assert (KA : forall k, In k (map fst (dadd K eq2 (lt_tl K l) g)) -> in_leads (lt_nl K l) k).
    { intros k Hk. apply dadd_keys in Hk. destruct Hk; auto. }
    rewrite EN. destruct (arr_some (lt_nl K l) n _ KA) as (arr & ->). destruct (tba_some (lt_si K l) (lt_nl K l) g (lt_T0 K l) R KO) as (T & -> & _).
    eexists. split; [reflexivity|]. repeat split; auto; now apply KA.
  - unfold lt_change. destruct a as [|x|]; [exists l; repeat split; auto; now apply KL| |destruct W]. cbn [tl_arg] in *.
    set (g := make_tleads_dict K isz spin (nls_of (lt_nl K l)) nss true x) in *.
    pose proof (dchange_keys K isz eq2 g (lt_tl K l)) as A1. pose proof (dchange_diff_keys K isz eq2 g (lt_tl K l)) as A2.
    destruct (dchange K isz eq2 true (lt_tl K l) g) as [tl dd]. cbn [fst snd] in *.
    destruct (tba_some (lt_si K l) (lt_nl K l) dd (lt_T0 K l) R) as (T & -> & _); auto.
    eexists. split; [reflexivity|]. assert (KA : forall k, In k (map fst tl) -> in_leads (lt_nl K l) k) by (intros k Hk; destruct (A1 k Hk); auto).
    repeat split; auto; now apply KA.
  - destruct KO as (Hix & Hl). unfold lt_remove. destruct (reached_remove n name (lt_si K l) lst Hn R Hix Hl) as (si & -> & R').
    unfold lt_coupling. destruct (tba_some si (lt_nl K l) (lt_tl K l) zeros R' KL) as (T & -> & _). eexists. split; [reflexivity|].
    repeat split; auto; now apply KL.
  - destruct W as (Hs & W). unfold lt_update. rewrite EN. destruct (arr_some nl n d KO) as (arr & ->).
    destruct (tba_some (lt_si K l) nl d zeros R KO) as (T & -> & _). eexists. split; [reflexivity|]. unfold good_lt. cbn [lt_tl lt_nl lt_si].
    rewrite tl_dict_plain, Hs. cbn [tl_plain]. repeat split; auto; now apply KO.
Qed.
Theorem C19_operator : forall nl x os, wf_input K x -> Forall wf_lop os ->
  (forall k, In k (map fst (make_tleads_dict K isz spin (nls_of nl) nss false x)) -> in_leads nl k) -> lops_keys_ok nl os ->
  exists l0 l, lt_init (si_init n name) nl x = Some l0 /\ lt_run l0 os = Some l /\
    forall b k' k s' s, (k' < si_nmany (lt_si K l))%nat -> (k < si_nmany (lt_si K l))%nat ->
      get_state (lt_si K l) k' = Some s' -> get_state (lt_si K l) k = Some s ->
      lt_T0 K l (b, k', k) = mel C (tunnel_op K (lt_tl K l) b) s' s.
Proof.
  intros nl x os W WO KX KO. pose proof (init_reached n name Hn) as R0.
  destruct (arr_some nl n _ KX) as (arr & EA). destruct (tba_some (si_init n name) nl _ zeros R0 KX) as (T & ET & _).
  assert (E0 : lt_init (si_init n name) nl x = Some (mkLT K (si_init n name) nl (make_tleads_dict K isz spin (nls_of nl) nss false x) arr T)).
  { unfold Params.lt_init. rewrite init_n, EA. unfold lt_coupling. now rewrite ET. }
  match type of E0 with _ = Some ?q => set (l0 := q) in E0 end. exists l0.
  assert (G0 : good_lt l0 /\ lt_nl K l0 = nl) by (repeat split; auto; now apply KX).
  assert (RUN : exists l, lt_run l0 os = Some l /\ good_lt l).
  { clear E0. clearbody l0. destruct G0 as (G0 & EN). subst nl. clear KX arr EA T ET. revert l0 KO G0. induction WO as [|o os Wo _ IH]; intros l0 KO G0; [exists l0; auto|].
    destruct KO as (K1 & K2). destruct (lt_step_good o l0 Wo K1 G0) as (l1 & E1 & G1 & EN). rewrite <- EN in K2.
    destruct (IH l1 K2 G1) as (l & E & G). exists l. cbn. rewrite E1. auto. }
  destruct RUN as (l & E & (R & KL)). exists l. split; auto. split; auto. intros b k' k s' s B1 B2 G1 G2.
  destruct (C19_fresh _ _ _ _ _ _ W WO E0 E) as (m & Em & V). rewrite V.
  destruct (tba_some (lt_si K l) (lt_nl K l) (lt_tl K l) zeros R KL) as (T' & ET' & V'). rewrite Em in ET'. injection ET' as <-.
  rewrite (V' b k' k s' s B1 B2 G1 G2). unfold zeros. ring.
Qed.
End Operator.
End Leads.

(** *** C20 *)
Section Baths.
Variables (spin : bool) (nss : nat).
Local Notation PB := (PB K).
Local Notation pop := (pop K).
Local Notation pb_init := (pb_init K isz spin nss).
Local Notation pb_step := (pb_step K isz spin nss).
Local Notation pb_run := (pb_run K isz spin nss).
(** Vbbp0 is the matrix built from zero with the stored velph *)
Definition pb_fresh (p : PB) : Prop :=
  exists m, elph_construct_Vbbp K (pb_si K p) (pb_nb K p) (pb_ve K p) zeros = Some m /\ forall i, pb_V0 K p i = m i.
Definition wf_pop (o : pop) : Prop :=
  match o with PAdd _ a | PChange _ a => wf_arg K a | PRemove _ _ => True | PUpdate _ _ d => spin = false /\ NoDup (map fst d) end.
Lemma ve_arg_nodup : forall self az a, wf_arg K a -> NoDup (map fst (ve_arg K isz spin nss self az a)).
Proof. intros self az [|x|] W; cbn [ve_arg]; [constructor|now apply ve_nodup|destruct W]. Qed.
Lemma pb_step_fresh : forall o p p', wf_pop o -> pb_step p o = Some p' -> NoDup (map fst (pb_ve K p)) -> pb_fresh p ->
  NoDup (map fst (pb_ve K p')) /\ pb_fresh p'.
Proof.
  intros o p p' W H ND F. destruct o as [a|a|lst|nb d]; cbn [Params.pb_step wf_pop] in *.
  - unfold pb_add in H. rewrite wf_seen in H by auto. destruct a as [|x|]; [injection H as <-; auto| |destruct W].
    destruct (elph_construct_Vbbp _ _ _ _ _) as [m|] eqn:E; [|discriminate].
    injection H as <-. split; [now apply dadd_nodup|]. unfold pb_fresh. cbn [pb_ve pb_si pb_nb pb_V0].
    apply (fresh_add eq3 eq3 (get_state (pb_si K p)) (vbbp_step K (pb_si K p) (pb_nb K p)) (seq 0 (si_nmany (pb_si K p))) (vbbp_step_add K (pb_si K p) (pb_nb K p))
      (vbbp_step_ok K (pb_si K p) (pb_nb K p)) (pb_ve K p) (ve_arg K isz spin nss (pb_ve K p) false (AFresh K _ x)) (pb_V0 K p) m F E).
  - unfold pb_change in H. destruct a as [|x|]; [injection H as <-; auto| |destruct W].
    pose proof (ve_arg_nodup (pb_ve K p) true _ W) as N1.
    destruct (dchange K isz eq3 true (pb_ve K p) _) as [ve dd] eqn:EC. destruct (elph_construct_Vbbp K _ _ dd _) as [m|] eqn:E; [|discriminate].
    injection H as <-. cbn [pb_ve]. split.
    + pose proof (dchange_nodup K isz eq3 (ve_arg K isz spin nss (pb_ve K p) true (AFresh K _ x)) (pb_ve K p) ND) as T. now rewrite EC in T.
    + unfold pb_fresh. cbn [pb_ve pb_si pb_nb pb_V0].
      apply (fresh_change eq3 eq3 (get_state (pb_si K p)) (vbbp_step K (pb_si K p) (pb_nb K p)) (seq 0 (si_nmany (pb_si K p))) (vbbp_step_add K (pb_si K p) (pb_nb K p))
        (vbbp_step_ok K (pb_si K p) (pb_nb K p)) (pb_ve K p) _ (pb_V0 K p) m ve dd N1 F EC E).
  - unfold pb_remove in H. destruct (remove_fock_states _ lst) as [si|]; [|discriminate]. unfold pb_coupling in H.
    destruct (elph_construct_Vbbp _ _ _ _ _) as [m|] eqn:E; [|discriminate]. injection H as <-. split; [exact ND|]. exists m. auto.
  - destruct W as (Hs & W). unfold pb_update in H.
    destruct (elph_construct_Vbbp _ _ _ _ _) as [m|] eqn:E; [|discriminate]. injection H as <-. cbn [pb_ve]. rewrite ve_dict_plain, Hs. cbn [ve_plain].
    split; [exact W|]. exists m. cbn [pb_si pb_nb pb_ve pb_V0]. auto.
Qed.
Lemma pb_init_fresh : forall si nb x p, wf_input K x -> pb_init si nb x = Some p -> NoDup (map fst (pb_ve K p)) /\ pb_fresh p.
Proof.
  intros si nb x p W H. unfold Params.pb_init, pb_coupling in H.
  destruct (elph_construct_Vbbp _ _ _ _ _) as [m|] eqn:E; [|discriminate]. injection H as <-. split; [now apply ve_nodup|]. exists m. auto.
Qed.

(** Every history of successful calls. *)
Theorem C20_fresh : forall si nb x os p0 p, wf_input K x -> Forall wf_pop os -> pb_init si nb x = Some p0 -> pb_run p0 os = Some p -> pb_fresh p.
Proof.
  intros si nb x os p0 p W WO E0 E. destruct (pb_init_fresh si nb x p0 W E0) as (N & F). clear E0. revert p0 N F E.
  induction WO as [|o os Wo _ IH]; intros p0 N F E; cbn in E; [injection E as <-; auto|].
  destruct (pb_step p0 o) as [p1|] eqn:E1; [|discriminate]. destruct (pb_step_fresh o p0 p1 Wo E1 N F). eauto.
Qed.

(** The stored values: add adds exactly to the named couplings, change sets exactly the named ones, update_Vbbp0 replaces all. *)
Definition ve_after (f : nat * nat * nat -> C) (o : pop) : nat * nat * nat -> C :=
  match o with
  | PAdd _ a => fun k => f k + or0 K (arg_of K (given_ve spin nss false) a k)
  | PChange _ a => fun k => match arg_of K (given_ve spin nss true) a k with Some v => v | None => f k end
  | PRemove _ _ => f
  | PUpdate _ _ d => fun k => or0 K (row_of K eq3 d k)
  end.
Definition ve_only (az : bool) (x : input (nat * nat * nat) C) : Prop :=
  spin = true -> only (fun k => snd (fst k) < nss /\ snd k < nss)%nat (named eq3 ve_inside az x).
Definition ve_op_ok (o : pop) : Prop :=
  match o with PAdd _ (AFresh _ _ x) => ve_only false x | PChange _ (AFresh _ _ x) => ve_only true x | _ => True end.
Lemma pb_step_val : forall o p p' f, wf_pop o -> ve_op_ok o -> pb_step p o = Some p' -> (forall k, val K eq3 (pb_ve K p) k = f k) ->
  forall k, val K eq3 (pb_ve K p') k = ve_after f o k.
Proof.
  intros o p p' f W OK H V. destruct o as [a|a|lst|nb d]; cbn [Params.pb_step wf_pop ve_after ve_op_ok] in *.
  - unfold pb_add in H. rewrite wf_seen in H by auto. destruct a as [|x|]; [|..|destruct W].
    { injection H as <-. intros k. rewrite V. cbn [arg_of or0]. ring. }
    destruct (elph_construct_Vbbp _ _ _ _ _) as [m|]; [|discriminate].
    injection H as <-. cbn [pb_ve]. intros k. rewrite dadd_val by now apply ve_nodup. rewrite V. f_equal.
    cbn [ve_arg arg_of]. unfold val. rewrite ve_dict_get by auto. reflexivity.
  - unfold pb_change in H. destruct a as [|x|]; [injection H as <-; auto| |destruct W].
    pose proof (fun k => dchange_val K isz isz_spec eq3 _ (pb_ve K p) k (ve_arg_nodup (pb_ve K p) true _ W)) as DV.
    destruct (dchange K isz eq3 true (pb_ve K p) _) as [ve dd] eqn:EC. destruct (elph_construct_Vbbp K _ _ dd _) as [m|] eqn:E; [|discriminate].
    injection H as <-. cbn [pb_ve fst] in *. intros k. rewrite DV, V. cbn [ve_arg arg_of]. now rewrite ve_dict_get by auto.
  - unfold pb_remove in H. destruct (remove_fock_states _ lst) as [si|]; [|discriminate]. unfold pb_coupling in H.
    destruct (elph_construct_Vbbp _ _ _ _ _) as [m|] eqn:E; [|discriminate]. injection H as <-. auto.
  - destruct W as (Hs & W). unfold pb_update in H.
    destruct (elph_construct_Vbbp _ _ _ _ _) as [m|] eqn:E; [|discriminate]. injection H as <-. cbn [pb_ve].
    intros k. rewrite ve_dict_plain, Hs. cbn [ve_plain]. rewrite row_dget. unfold val, or0.
    pose proof (last_of_nodup eq3 d k W) as X. unfold last_of in X. now rewrite X.
Qed.
Theorem C20_values : forall si nb x os p0 p, wf_input K x -> Forall wf_pop os -> pb_init si nb x = Some p0 -> pb_run p0 os = Some p ->
  ve_only false x -> Forall ve_op_ok os ->
  forall k, val K eq3 (pb_ve K p) k = fold_left ve_after os (fun k => or0 K (given_ve spin nss false x k)) k.
Proof.
  intros si nb x os p0 p W WO E0 E O OK.
  assert (A : forall k, val K eq3 (pb_ve K p0) k = or0 K (given_ve spin nss false x k)).
  { unfold Params.pb_init, pb_coupling in E0. destruct (elph_construct_Vbbp _ _ _ _ _) as [m|]; [|discriminate]. injection E0 as <-.
    cbn [pb_ve]. intros k. unfold val. rewrite ve_dict_get by auto. reflexivity. }
  clear E0 W O. set (f := fun k => or0 K (given_ve spin nss false x k)) in *. change (forall k, val K eq3 (pb_ve K p0) k = f k) in A. clearbody f.
  revert f p0 E A. induction WO as [|o os Wo _ IH]; intros f p0 E A; cbn in E; [injection E as <-; exact A|].
  pose proof (Forall_inv OK) as O1. pose proof (Forall_inv_tail OK) as O2.
  destruct (pb_step p0 o) as [p1|] eqn:E1; [|discriminate]. cbn [fold_left]. apply (IH O2 _ p1); auto.
  intros k. now apply (pb_step_val o p0 p1 f Wo O1 E1 A k).
Qed.
Theorem C20_change_twice : forall p a p', wf_arg K a -> pb_step p (PChange K a) = Some p' ->
  exists p'', pb_step p' (PChange K a) = Some p'' /\ pb_ve K p'' = pb_ve K p' /\ forall i, pb_V0 K p'' i = pb_V0 K p' i.
Proof.
  intros p a p' W H. cbn [Params.pb_step] in *. unfold pb_change in *. destruct a as [|x|]; [injection H as <-; eauto| |destruct W].
  pose proof (ve_arg_nodup (pb_ve K p) true _ W) as N.
  pose proof (fun k => dchange_val K isz isz_spec eq3 _ (pb_ve K p) k N) as DV. cbn [ve_arg] in *.
  set (g := make_velph_dict K isz spin nss true x) in *. clearbody g.
  destruct (dchange K isz eq3 true (pb_ve K p) g) as [ve dd] eqn:EC. destruct (elph_construct_Vbbp K _ _ dd _) as [m|] eqn:E; [|discriminate].
  injection H as <-. cbn [pb_ve pb_si pb_nb pb_V0 fst] in *.
  rewrite (dchange_nothing K isz isz_spec eq3 g ve). 2: { intros k w Hin. rewrite DV. apply dget_nodup with (keq := eq3) in Hin; auto. now rewrite Hin. }
  rewrite vbbp_builder in E. pose proof (proj1 (builder_ok K eq3 _ _ _ (vbbp_step_ok K (pb_si K p) (pb_nb K p)) _ _) (ex_intro _ m E)) as (P & _).
  destruct (proj2 (builder_ok K eq3 (get_state (pb_si K p)) (vbbp_step K (pb_si K p) (pb_nb K p)) (seq 0 (si_nmany (pb_si K p))) (vbbp_step_ok K (pb_si K p) (pb_nb K p)) [] m)) as (m2 & E2).
  { split; [exact P|]. intros k []. }
  rewrite vbbp_builder, E2. eexists. split; [reflexivity|]. cbn [pb_ve pb_V0]. split; auto. intros i.
  rewrite (builder_val _ _ _ _ _ _ _ _ E2 i). cbn [rsum map fold_right]. ring.
Qed.

(** Calls with existing baths and levels never raise, and Vbbp0 is the second-quantised coupling operator of the stored velph. *)
Section Operator.
Variables (n : nat) (name : string).
Hypothesis Hn : (1 <= n)%nat.
Definition in_baths (nb : nat) (k : nat * nat * nat) : Prop := (fst (fst k) < nb /\ snd (fst k) < n /\ snd k < n)%nat.
Definition next_nb (nb : nat) (o : pop) : nat := match o with PUpdate _ nb' _ => nb' | _ => nb end.
Definition pop_keys_ok (nb : nat) (o : pop) : Prop :=
  match o with
  | PAdd _ a => forall k, In k (map fst (ve_arg K isz spin nss [] false a)) -> in_baths nb k
  | PChange _ a => forall k, In k (map fst (ve_arg K isz spin nss [] true a)) -> in_baths nb k
  | PRemove _ lst => (ix_of name n = IxCharge \/ ix_of name n = IxSz) /\ forall k, In k lst -> (k < 2 ^ n)%nat
  | PUpdate _ nb' d => forall k, In k (map fst d) -> in_baths nb' k
  end.
Fixpoint pops_keys_ok (nb : nat) (os : list pop) : Prop :=
  match os with [] => True | o :: os => pop_keys_ok nb o /\ pops_keys_ok (next_nb nb o) os end.
Lemma vbbp_some : forall si nb d V, si_reached n name si -> (forall k, In k (map fst d) -> in_baths nb k) ->
  exists V', elph_construct_Vbbp K si nb d V = Some V' /\
    forall b k' k s' s, (k' < si_nmany si)%nat -> (k < si_nmany si)%nat -> get_state si k' = Some s' -> get_state si k = Some s ->
      V' (b, k', k) = V (b, k', k) + mel C (phonon_op K d b) s' s.
Proof.
  intros si nb d V (rops & RS & _) KD. apply (C16_phonon K n name rops si nb d V RS).
  intros b i j t Hin. apply (KD (b, i, j)). apply in_map_iff. exists ((b, i, j), t). auto.
Qed.
Definition good_pb (p : PB) : Prop := si_reached n name (pb_si K p) /\ forall k, In k (map fst (pb_ve K p)) -> in_baths (pb_nb K p) k.
Lemma pb_step_good : forall o p, wf_pop o -> pop_keys_ok (pb_nb K p) o -> good_pb p ->
  exists p', pb_step p o = Some p' /\ good_pb p' /\ pb_nb K p' = next_nb (pb_nb K p) o.
Proof.
  intros o p W KO (R & KL). destruct o as [a|a|lst|nb d]; cbn [Params.pb_step wf_pop pop_keys_ok next_nb] in *.
  - unfold pb_add. rewrite wf_seen by auto. destruct a as [|x|]; [exists p; split; [auto|]; split; [split; auto|auto]| |destruct W]. cbn [ve_arg] in *.
    set (g := make_velph_dict K isz spin nss false x) in *.
    assert (KA : forall k, In k (map fst (dadd K eq3 (pb_ve K p) g)) -> in_baths (pb_nb K p) k).
    { intros k Hk. apply dadd_keys in Hk. destruct Hk; auto. }
    destruct (vbbp_some (pb_si K p) (pb_nb K p) g (pb_V0 K p) R KO) as (T & -> & _).
    eexists. split; [reflexivity|]. split; [split; [exact R|exact KA]|reflexivity].
  - unfold pb_change. destruct a as [|x|]; [exists p; split; [auto|]; split; [split; auto|auto]| |destruct W]. cbn [ve_arg] in *.
    set (g := make_velph_dict K isz spin nss true x) in *.
    pose proof (dchange_keys K isz eq3 g (pb_ve K p)) as A1. pose proof (dchange_diff_keys K isz eq3 g (pb_ve K p)) as A2.
    destruct (dchange K isz eq3 true (pb_ve K p) g) as [ve dd]. cbn [fst snd] in *.
    destruct (vbbp_some (pb_si K p) (pb_nb K p) dd (pb_V0 K p) R) as (T & -> & _); auto.
    eexists. split; [reflexivity|]. split; [split; [exact R|]|reflexivity]. cbn [pb_ve pb_nb]. intros k Hk; destruct (A1 k Hk); auto.
  - destruct KO as (Hix & Hl). unfold pb_remove. destruct (reached_remove n name (pb_si K p) lst Hn R Hix Hl) as (si & -> & R').
    unfold pb_coupling. destruct (vbbp_some si (pb_nb K p) (pb_ve K p) zeros R' KL) as (T & -> & _). eexists. split; [reflexivity|].
    split; [split; [exact R'|exact KL]|reflexivity].
  - destruct W as (Hs & W). unfold pb_update.
    destruct (vbbp_some (pb_si K p) nb d zeros R KO) as (T & -> & _). eexists. split; [reflexivity|]. unfold good_pb. cbn [pb_ve pb_nb pb_si].
    rewrite ve_dict_plain, Hs. cbn [ve_plain]. split; [split; [exact R|exact KO]|reflexivity].
Qed.
Theorem C20_operator : forall nb x os, wf_input K x -> Forall wf_pop os ->
  (forall k, In k (map fst (make_velph_dict K isz spin nss false x)) -> in_baths nb k) -> pops_keys_ok nb os ->
  exists p0 p, pb_init (si_init n name) nb x = Some p0 /\ pb_run p0 os = Some p /\
    forall b k' k s' s, (k' < si_nmany (pb_si K p))%nat -> (k < si_nmany (pb_si K p))%nat ->
      get_state (pb_si K p) k' = Some s' -> get_state (pb_si K p) k = Some s ->
      pb_V0 K p (b, k', k) = mel C (phonon_op K (pb_ve K p) b) s' s.
Proof.
  intros nb x os W WO KX KO. pose proof (init_reached n name Hn) as R0.
  destruct (vbbp_some (si_init n name) nb _ zeros R0 KX) as (T & ET & _).
  assert (E0 : pb_init (si_init n name) nb x = Some (mkPB K (si_init n name) nb (make_velph_dict K isz spin nss false x) T)).
  { unfold Params.pb_init, pb_coupling. now rewrite ET. }
  match type of E0 with _ = Some ?q => set (p0 := q) in E0 end. exists p0.
  assert (G0 : good_pb p0 /\ pb_nb K p0 = nb) by (split; [split; [exact R0|exact KX]|reflexivity]).
  assert (RUN : exists p, pb_run p0 os = Some p /\ good_pb p).
  { clear E0. clearbody p0. destruct G0 as (G0 & EN). subst nb. clear KX T ET. revert p0 KO G0. induction WO as [|o os Wo _ IH]; intros p0 KO G0; [exists p0; auto|].
    destruct KO as (K1 & K2). destruct (pb_step_good o p0 Wo K1 G0) as (p1 & E1 & G1 & EN). rewrite <- EN in K2.
    destruct (IH p1 K2 G1) as (p & E & G). exists p. cbn. rewrite E1. auto. }
  destruct RUN as (p & E & (R & KL)). exists p. split; auto. split; auto. intros b k' k s' s B1 B2 G1 G2.
  destruct (C20_fresh _ _ _ _ _ _ W WO E0 E) as (m & Em & V). rewrite V.
  destruct (vbbp_some (pb_si K p) (pb_nb K p) (pb_ve K p) zeros R KL) as (T' & ET' & V'). rewrite Em in ET'. injection ET' as <-.
  rewrite (V' b k' k s' s B1 B2 G1 G2). unfold zeros. ring.
Qed.
End Operator.
End Baths.
End Couplings.

Print Assumptions C19_fresh.
Print Assumptions C19_array.
Print Assumptions C19_values.
Print Assumptions C19_change_twice.
Print Assumptions C19_operator.
Print Assumptions C20_fresh.
Print Assumptions C20_values.
Print Assumptions C20_change_twice.
Print Assumptions C20_operator.

(** *** examples *)
Local Notation zl_init := (lt_init ZRing zisz).
Local Notation zl_run := (lt_run ZRing zisz).
Local Notation zp_init := (pb_init ZRing zisz).
Local Notation zp_run := (pb_run ZRing zisz).
Definition show_T (nl nm : nat) (T : nat * nat * nat -> Cx ZRing) := map T (list_prod (list_prod (seq 0 nl) (seq 0 nm)) (seq 0 nm)).
(** two leads, two levels; the doubly occupied state is removed *)
Definition l_in : input (nat * nat) (Cx ZRing) := InList [((0, 0), ZC 5 1); ((1, 0), ZC 2 0)].
Definition l_ops : list (lop ZRing) :=
  [LChange ZRing (AFresh ZRing _ (InList [((0, 0), ZC 3 1); ((1, 1), ZC 0 4)]));
   LRemove ZRing [3];
   LAdd ZRing (AFresh ZRing _ (InArr (2, 2, 0) (fun k => if eq2 k (1, 0) then ZC 1 1 else ZC 0 0)))].
Example C19_case :
  match zl_init false 0 (si_init 2 "charge") 2 l_in with
  | None => None
  | Some l0 => match zl_run false 0 l0 l_ops with
               | None => None
               | Some l => Some (lt_tl ZRing l, map (lt_arr ZRing l) (list_prod (seq 0 2) (seq 0 2)), show_T 2 3 (lt_T0 ZRing l))
               end
  end = Some ([((0, 0), ZC 3 1); ((1, 0), ZC 3 1); ((1, 1), ZC 0 4)], [ZC 3 1; ZC 0 0; ZC 3 1; ZC 0 4],
              [ZC 0 0; ZC 0 0; ZC 3 (-1); ZC 0 0; ZC 0 0; ZC 0 0; ZC 3 1; ZC 0 0; ZC 0 0;
               ZC 0 0; ZC 0 (-4); ZC 3 (-1); ZC 0 4; ZC 0 0; ZC 0 0; ZC 3 1; ZC 0 0; ZC 0 0]).
Proof. vm_compute. reflexivity. Qed.
Example C19_case_hyps : wf_input ZRing l_in /\ Forall (wf_lop ZRing false) l_ops /\
  fold_left (arr_current ZRing) l_ops true = true /\ tl_only ZRing zisz false 0 2 false l_in /\ tl_ops_ok ZRing zisz false 0 2 l_ops /\
  (forall k, In k (map fst (make_tleads_dict ZRing zisz false 2 0 false l_in)) -> in_leads 2 2 k) /\
  lops_keys_ok ZRing zisz false 0 2 "charge" 2 l_ops.
Proof.
  split; [exact I|]. split; [repeat constructor|]. split; [reflexivity|]. split; [discriminate|].
  split; [repeat split; discriminate|]. split; [(intros k Hk; vm_compute in Hk; repeat (destruct Hk as [<-|Hk]; [repeat split; apply Nat.ltb_lt; reflexivity|]); destruct Hk)|].
  split; [(intros k Hk; vm_compute in Hk; repeat (destruct Hk as [<-|Hk]; [repeat split; apply Nat.ltb_lt; reflexivity|]); destruct Hk)|]. split; [split; [left; reflexivity|intros k [<-|[]]; cbn; lia]|].
  split; [|exact I]. intros k Hk; vm_compute in Hk; repeat (destruct Hk as [<-|Hk]; [repeat split; apply Nat.ltb_lt; reflexivity|]); destruct Hk.
Qed.
(** one bath, two levels *)
Definition v_in : input (nat * nat * nat) (Cx ZRing) := InList [((0, 0, 0), ZC 5 1); ((0, 0, 1), ZC 2 0)].
Definition v_ops : list (pop ZRing) :=
  [PAdd ZRing (AFresh ZRing _ (InList [((0, 1, 0), ZC 7 0)])); PRemove ZRing [0];
   PChange ZRing (AFresh ZRing _ (InDict [((0, 0, 1), ZC 1 1); ((0, 0, 0), ZC 0 0)]))].
Example C20_case :
  match zp_init false 0 (si_init 2 "charge") 1 v_in with
  | None => None
  | Some p0 => match zp_run false 0 p0 v_ops with
               | None => None
               | Some p => Some (pb_ve ZRing p, show_T 1 3 (pb_V0 ZRing p))
               end
  end = Some ([((0, 0, 0), ZC 0 0); ((0, 0, 1), ZC 1 1); ((0, 1, 0), ZC 7 0)],
              [ZC 0 0; ZC 7 0; ZC 0 0; ZC 1 1; ZC 0 0; ZC 0 0; ZC 0 0; ZC 0 0; ZC 0 0]).
Proof. vm_compute. reflexivity. Qed.
Example C20_case_hyps : wf_input ZRing v_in /\ Forall (wf_pop ZRing false) v_ops /\
  ve_only ZRing zisz false 0 false v_in /\ Forall (ve_op_ok ZRing zisz false 0) v_ops /\
  (forall k, In k (map fst (make_velph_dict ZRing zisz false 0 false v_in)) -> in_baths 2 1 k) /\
  pops_keys_ok ZRing zisz false 0 2 "charge" 1 v_ops.
Proof.
  split; [exact I|]. split.
  { apply Forall_cons; [exact I|]. apply Forall_cons; [exact I|]. apply Forall_cons; [|constructor].
    cbn. constructor; [intros [E|[]]; discriminate|]. constructor; [intros []|constructor]. }
  split; [discriminate|]. split; [repeat constructor; discriminate|]. split; [(intros k Hk; vm_compute in Hk; repeat (destruct Hk as [<-|Hk]; [repeat split; apply Nat.ltb_lt; reflexivity|]); destruct Hk)|].
  split; [(intros k Hk; vm_compute in Hk; repeat (destruct Hk as [<-|Hk]; [repeat split; apply Nat.ltb_lt; reflexivity|]); destruct Hk)|]. split; [split; [left; reflexivity|intros k [<-|[]]; cbn; lia]|].
  split; [|exact I]. intros k Hk; vm_compute in Hk; repeat (destruct Hk as [<-|Hk]; [repeat split; apply Nat.ltb_lt; reflexivity|]); destruct Hk.
Qed.

(** *** what does not hold *)
Definition from {A} (o : option A) (d : A) : A := match o with Some x => x | None => d end.
Definition is_some {A} (o : option A) : bool := match o with Some _ => true | None => false end.
Lemma from_some : forall A (o : option A) d, is_some o = true -> o = Some (from o d).
Proof. intros A [x|] d H; [reflexivity|discriminate]. Qed.
Definition no_lt := mkLT ZRing (si_init 1 "charge") 0 [] (fun _ => ZC 0 0) (fun _ => ZC 0 0).
Definition no_pb := mkPB ZRing (si_init 1 "charge") 0 [] (fun _ => ZC 0 0).
Definition lt_of spin nss n nl x os : LT ZRing :=
  let l0 := from (zl_init spin nss (si_init n "charge") nl x) no_lt in from (zl_run spin nss l0 os) no_lt.
Definition pb_of spin nss n nb x os : PB ZRing :=
  let p0 := from (zp_init spin nss (si_init n "charge") nb x) no_pb in from (zp_run spin nss p0 os) no_pb.
Lemma not_fresh : forall (l : LT ZRing) i,
  (match construct_Tba ZRing (lt_si ZRing l) (lt_nl ZRing l) (lt_tl ZRing l) zeros with Some m => zisz (rsub (lt_T0 ZRing l i) (m i)) | None => false end) = false ->
  ~ lt_fresh ZRing l.
Proof.
  intros l i H (m & Em & V). rewrite Em, V in H. assert (X : zisz (@rsub (Cx ZRing) (m i) (m i)) = true); [|congruence].
  unfold zisz. destruct (m i) as [a b]. cbn [rsub Cx csub re im]. apply Bool.andb_true_iff. split; apply Z.eqb_eq; apply Z.sub_diag.
Qed.
Lemma not_fresh_pb : forall (p : PB ZRing) i,
  (match elph_construct_Vbbp ZRing (pb_si ZRing p) (pb_nb ZRing p) (pb_ve ZRing p) zeros with Some m => zisz (rsub (pb_V0 ZRing p i) (m i)) | None => false end) = false ->
  ~ pb_fresh ZRing p.
Proof.
  intros p i H (m & Em & V). rewrite Em, V in H. assert (X : zisz (@rsub (Cx ZRing) (m i) (m i)) = true); [|congruence].
  unfold zisz. destruct (m i) as [a b]. cbn [rsub Cx csub re im]. apply Bool.andb_true_iff. split; apply Z.eqb_eq; apply Z.sub_diag.
Qed.

(** leads.change(tleads={(0,0): 9}): tleads and Tba0 change, tleads_array keeps the old amplitude.  It is the array that
    the RTD approach uses (approach/base/RTD.py 329, 395). *)
Theorem C19_array_stale_refuted :
  exists l0 l, zl_init false 0 (si_init 1 "charge") 1 (InDict [((0, 0), ZC 5 0)]) = Some l0 /\
    zl_run false 0 l0 [LChange ZRing (AFresh ZRing _ (InDict [((0, 0), ZC 9 0)]))] = Some l /\
    lt_tl ZRing l = [((0, 0), ZC 9 0)] /\ lt_T0 ZRing l (0, 1, 0) = ZC 9 0 /\ lt_arr ZRing l (0, 0) = ZC 5 0 /\ ~ lt_arr_ok ZRing l.
Proof.
  exists (from (zl_init false 0 (si_init 1 "charge") 1 (InDict [((0, 0), ZC 5 0)])) no_lt).
  exists (lt_of false 0 1 1 (InDict [((0, 0), ZC 5 0)]) [LChange ZRing (AFresh ZRing _ (InDict [((0, 0), ZC 9 0)]))]).
  split; [apply from_some; vm_compute; reflexivity|]. split; [apply from_some; vm_compute; reflexivity|].
  split; [vm_compute; reflexivity|]. split; [vm_compute; reflexivity|]. split; [vm_compute; reflexivity|].
  intros A. specialize (A (0, 0)). vm_compute in A. discriminate A.
Qed.
(** leads.add(tleads=leads.tleads): the stored amplitudes are doubled, Tba0 is tripled. *)
Theorem C19_add_own_dictionary_refuted :
  exists l0 l, zl_init false 0 (si_init 1 "charge") 1 (InDict [((0, 0), ZC 5 0)]) = Some l0 /\
    zl_run false 0 l0 [LAdd ZRing (ASelf ZRing _)] = Some l /\
    lt_tl ZRing l = [((0, 0), ZC 10 0)] /\ lt_T0 ZRing l (0, 1, 0) = ZC 15 0 /\ ~ lt_fresh ZRing l.
Proof.
  exists (from (zl_init false 0 (si_init 1 "charge") 1 (InDict [((0, 0), ZC 5 0)])) no_lt).
  exists (lt_of false 0 1 1 (InDict [((0, 0), ZC 5 0)]) [LAdd ZRing (ASelf ZRing _)]).
  split; [apply from_some; vm_compute; reflexivity|]. split; [apply from_some; vm_compute; reflexivity|].
  split; [vm_compute; reflexivity|]. split; [vm_compute; reflexivity|]. apply (not_fresh _ (0, 1, 0)). vm_compute. reflexivity.
Qed.
(** update_Tba0 with symmetry='spin': the stored tleads are doubled, but Tba0 and tleads_array only have the given spin. *)
Theorem C19_update_spin_refuted :
  exists l0 l, zl_init true 1 (si_init 2 "charge") 2 (InDict [((0, 0), ZC 5 0)]) = Some l0 /\
    zl_run true 1 l0 [LUpdate ZRing 2 [((0, 0), ZC 9 0)]] = Some l /\
    lt_tl ZRing l = [((0, 0), ZC 9 0); ((1, 1), ZC 9 0)] /\ lt_arr ZRing l (1, 1) = ZC 0 0 /\ ~ lt_fresh ZRing l.
Proof.
  exists (from (zl_init true 1 (si_init 2 "charge") 2 (InDict [((0, 0), ZC 5 0)])) no_lt).
  exists (lt_of true 1 2 2 (InDict [((0, 0), ZC 5 0)]) [LUpdate ZRing 2 [((0, 0), ZC 9 0)]]).
  split; [apply from_some; vm_compute; reflexivity|]. split; [apply from_some; vm_compute; reflexivity|].
  split; [vm_compute; reflexivity|]. split; [vm_compute; reflexivity|]. apply (not_fresh _ (1, 1, 0)). vm_compute. reflexivity.
Qed.
Theorem C20_add_own_dictionary_refuted :
  exists p0 p, zp_init false 0 (si_init 1 "charge") 1 (InDict [((0, 0, 0), ZC 5 0)]) = Some p0 /\
    zp_run false 0 p0 [PAdd ZRing (ASelf ZRing _)] = Some p /\
    pb_ve ZRing p = [((0, 0, 0), ZC 10 0)] /\ pb_V0 ZRing p (0, 1, 1) = ZC 15 0 /\ ~ pb_fresh ZRing p.
Proof.
  exists (from (zp_init false 0 (si_init 1 "charge") 1 (InDict [((0, 0, 0), ZC 5 0)])) no_pb).
  exists (pb_of false 0 1 1 (InDict [((0, 0, 0), ZC 5 0)]) [PAdd ZRing (ASelf ZRing _)]).
  split; [apply from_some; vm_compute; reflexivity|]. split; [apply from_some; vm_compute; reflexivity|].
  split; [vm_compute; reflexivity|]. split; [vm_compute; reflexivity|]. apply (not_fresh_pb _ (0, 1, 1)). vm_compute. reflexivity.
Qed.
Theorem C20_update_spin_refuted :
  exists p0 p, zp_init true 1 (si_init 2 "charge") 1 (InDict [((0, 0, 0), ZC 5 0)]) = Some p0 /\
    zp_run true 1 p0 [PUpdate ZRing 1 [((0, 0, 0), ZC 9 0)]] = Some p /\
    pb_ve ZRing p = [((0, 0, 0), ZC 9 0); ((0, 1, 1), ZC 9 0)] /\ ~ pb_fresh ZRing p.
Proof.
  exists (from (zp_init true 1 (si_init 2 "charge") 1 (InDict [((0, 0, 0), ZC 5 0)])) no_pb).
  exists (pb_of true 1 2 1 (InDict [((0, 0, 0), ZC 5 0)]) [PUpdate ZRing 1 [((0, 0, 0), ZC 9 0)]]).
  split; [apply from_some; vm_compute; reflexivity|]. split; [apply from_some; vm_compute; reflexivity|].
  split; [vm_compute; reflexivity|]. apply (not_fresh_pb _ (0, 1, 1)). vm_compute. reflexivity.
Qed.
