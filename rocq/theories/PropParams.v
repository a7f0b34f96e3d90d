(** Properties C18-C20: histories of add and change on the parameters. *)
From Coq Require Import String List Arith Lia Bool ZArith Ring.
From Verif Require Import Base Bits Indexing IndexingProofs RemoveProofs PropIndexing CRing Fock Operators OperatorsProofs PropOperators Params ParamsProofs.
Import ListNotations.
Open Scope nat_scope.
Local Notation length := List.length.

Lemma range2_nodup : forall lo hi, NoDup (range2 lo hi).
Proof.
  intros lo hi. unfold range2. apply FinFun.Injective_map_NoDup; [|apply seq_NoDup]. intros x y H. lia.
Qed.
Lemma ham_blocks_nodup : forall q si, NoDup (ham_blocks q si).
Proof.
  intros q si. unfold ham_blocks.
  assert (G : forall (f : nat -> list Z) l, NoDup l -> (forall c, NoDup (f c)) ->
    NoDup (flat_map (fun c => map (fun z => (c, Some z)) (f c)) l)).
  { intros f l ND H. induction l as [|c l IH]; simpl; [constructor|]. inversion ND; subst. apply NoDup_app_intro; auto.
    - apply FinFun.Injective_map_NoDup; auto. intros x y E. congruence.
    - intros x Hx Hy. apply in_map_iff in Hx. destruct Hx as (z & <- & _). apply in_flat_map in Hy.
      destruct Hy as (c' & Hc & Hy). apply in_map_iff in Hy. destruct Hy as (z' & E & _). injection E as -> _. contradiction. }
  assert (P : NoDup (map (fun c => (c, @None Z)) (seq 0 (si_ncharge si)))).
  { apply FinFun.Injective_map_NoDup; [intros x y E; congruence|apply seq_NoDup]. }
  destruct (si_indexing si); auto; apply G; try apply seq_NoDup; intros c; try (destruct q); try apply range2_nodup.
  repeat constructor. simpl. tauto.
Qed.

Section QuantumDot.
Variable K : CRing.
Notation C := (Cx K).
Add Ring Cqd : (rth C).
Local Open Scope rng_scope.
Variable isz : C -> bool.
Hypothesis isz_spec : forall x, isz x = true <-> x = 0.
Variables (herm_hs herm_c m_less_n ham_ssq_q spin : bool) (nss : nat).
Local Notation QD := (QD K).
Local Notation qop := (qop K).
Local Notation arg := (arg K).
Local Notation ham_block := (ham_block K herm_hs herm_c m_less_n).
Local Notation ham_add := (ham_add K herm_hs herm_c m_less_n ham_ssq_q).
Local Notation blocks := (ham_blocks ham_ssq_q).

Lemma ham_add_spec : forall si hs cl h h', ham_add si hs cl h = Some h' ->
  (forall b, In b (blocks si) -> ham_block si hs cl b (h b) = Some (h' b)) /\
  (forall b, ~ In b (blocks si) -> h' b = h b).
Proof.
  intros si hs cl h h'. unfold Params.ham_add. pose proof (ham_blocks_nodup ham_ssq_q si) as ND. revert h ND.
  induction (blocks si) as [|b l IH]; intros h ND H.
  - cbn in H. injection H as <-. split; [intros b []|auto].
  - cbn [fold_left] in H. inversion ND as [|x xs N1 N2]; subst.
    destruct (ham_block si hs cl b (h b)) as [m|] eqn:E.
    + destruct (IH _ N2 H) as (H1 & H2). split.
      * intros b' [->|Hb]; [|specialize (H1 b' Hb); destruct (eqblk b' b) as [->|]; [contradiction|exact H1]].
        specialize (H2 b' N1). rewrite H2. destruct (eqblk b' b'); congruence.
      * intros b' Hb. rewrite H2 by (intros X; apply Hb; now right). destruct (eqblk b' b) as [->|]; auto.
        exfalso. apply Hb. now left.
    + exfalso. clear - H. induction l; cbn [fold_left] in H; [discriminate|auto].
Qed.
Lemma ham_add_some : forall si hs cl h, (forall b, In b (blocks si) -> forall m, exists m', ham_block si hs cl b m = Some m') ->
  exists h', ham_add si hs cl h = Some h'.
Proof.
  intros si hs cl h. unfold Params.ham_add. revert h. induction (blocks si) as [|b l IH]; intros h H; cbn [fold_left]; [eauto|].
  destruct (H b (or_introl eq_refl) (h b)) as (m & ->). apply IH. intros b' Hb. apply H. now right.
Qed.

Definition c_coul (si : SI) (lst : list nat) (i : nat * nat) := contrib K eq2 (blk_pre si lst) (coul_step K si herm_c m_less_n lst) (seq 0 (length lst)) i.
Definition c_hop (si : SI) (lst : list nat) (i : nat * nat) := contrib K eq2 (blk_pre si lst) (hop_step K si herm_hs lst) (seq 0 (length lst)) i.
Lemma ham_block_val : forall si hs cl b m m' lst, get_lst si (fst b) (snd b) None = Some lst -> ham_block si hs cl b m = Some m' ->
  forall i, m' i = m i + total K (c_coul si lst i) cl + total K (c_hop si lst i) hs.
Proof.
  intros si hs cl b m m' lst E H i. unfold Params.ham_block in H. rewrite E in H.
  destruct (construct_ham_coulomb K si herm_c m_less_n cl lst m) as [m1|] eqn:E1; [|discriminate].
  rewrite hop_builder in H. rewrite coul_builder in E1.
  rewrite (builder_val _ _ _ _ _ _ _ _ H i), (builder_val _ _ _ _ _ _ _ _ E1 i). reflexivity.
Qed.
Definition keys_fine (si : SI) (lst : list nat) (hk : list (nat * nat)) (ck : list (nat * nat * nat * nat)) : Prop :=
  (forall j, In j (seq 0 (length lst)) -> blk_pre si lst j <> None) /\
  (forall k, In k hk -> fine K (blk_pre si lst) (hop_step K si herm_hs lst) (seq 0 (length lst)) k) /\
  (forall k, In k ck -> fine K (blk_pre si lst) (coul_step K si herm_c m_less_n lst) (seq 0 (length lst)) k).
Lemma ham_block_ok : forall si hs cl b m lst, get_lst si (fst b) (snd b) None = Some lst ->
  (exists m', ham_block si hs cl b m = Some m') <-> keys_fine si lst (map fst hs) (map fst cl).
Proof.
  intros si hs cl b m lst E. unfold Params.ham_block, keys_fine. rewrite E. rewrite coul_builder. split.
  - intros (m' & H). destruct (builder _ _ _ _ _ cl m) as [m1|] eqn:E1; [|discriminate]. rewrite hop_builder in H.
    pose proof (proj1 (builder_ok K eq2 (blk_pre si lst) (coul_step K si herm_c m_less_n lst) (seq 0 (length lst))
       (coul_step_ok K si herm_c m_less_n lst) cl m) (ex_intro _ m1 E1)) as (A & B).
    pose proof (proj1 (builder_ok K eq2 (blk_pre si lst) (hop_step K si herm_hs lst) (seq 0 (length lst))
       (hop_step_ok K si herm_hs lst) hs m1) (ex_intro _ m' H)) as (A' & B'). auto.
  - intros (A & B & D).
    destruct (proj2 (builder_ok K eq2 (blk_pre si lst) (coul_step K si herm_c m_less_n lst) (seq 0 (length lst))
       (coul_step_ok K si herm_c m_less_n lst) cl m) (Logic.conj A D)) as (m1 & ->). rewrite hop_builder.
    apply (builder_ok K eq2 (blk_pre si lst) (hop_step K si herm_hs lst) (seq 0 (length lst))
       (hop_step_ok K si herm_hs lst) hs m1). auto.
Qed.
Lemma ham_block_lst : forall si hs cl b m m', ham_block si hs cl b m = Some m' -> exists lst, get_lst si (fst b) (snd b) None = Some lst.
Proof. intros si hs cl b m m' H. unfold Params.ham_block in H. destruct (get_lst _ _ _ _); eauto; discriminate. Qed.

(** *** C18 *)
(** each stored block is the one built from zero with the stored dictionaries *)
Definition ham_fresh (q : QD) : Prop := forall b, In b (blocks (q_si K q)) ->
  exists m, ham_block (q_si K q) (q_hs K q) (q_cl K q) b zeros = Some m /\ forall i, q_ham K q b i = m i.
Definition wf_qd (q : QD) : Prop := NoDup (map fst (q_hs K q)) /\ NoDup (map fst (q_cl K q)).

Lemma ham_fresh_step : forall si hs cl hs' cl' dh dc h h',
  (forall b, In b (blocks si) -> exists m, ham_block si hs cl b zeros = Some m /\ forall i, h b i = m i) ->
  ham_add si dh dc h = Some h' ->
  (forall D : nat * nat -> C -> C, (forall k v w, D k (v + w) = D k v + D k w) -> total K D hs' = total K D hs + total K D dh) ->
  (forall D : nat * nat * nat * nat -> C -> C, (forall k v w, D k (v + w) = D k v + D k w) -> total K D cl' = total K D cl + total K D dc) ->
  (forall k, In k (map fst hs') -> In k (map fst hs) \/ In k (map fst dh)) ->
  (forall k, In k (map fst cl') -> In k (map fst cl) \/ In k (map fst dc)) ->
  (forall b, In b (blocks si) -> exists m, ham_block si hs' cl' b zeros = Some m /\ forall i, h' b i = m i).
Proof.
  intros si hs cl hs' cl' dh dc h h' F A TH TC KH KC b Hb.
  destruct (F b Hb) as (m & E & V). destruct (ham_add_spec _ _ _ _ _ A) as (A1 & _). specialize (A1 b Hb).
  destruct (ham_block_lst _ _ _ _ _ _ E) as (lst & EL).
  pose proof (proj1 (ham_block_ok si hs cl b zeros lst EL) (ex_intro _ m E)) as (P & H1 & C1).
  pose proof (proj1 (ham_block_ok si dh dc b (h b) lst EL) (ex_intro _ _ A1)) as (_ & H2 & C2).
  destruct (proj2 (ham_block_ok si hs' cl' b zeros lst EL)) as (m' & E').
  { split; [exact P|]. split; intros k Hk; [apply KH in Hk|apply KC in Hk]; destruct Hk; auto. }
  exists m'. split; auto. intros i.
  rewrite (ham_block_val _ _ _ _ _ _ lst EL A1 i), V, (ham_block_val _ _ _ _ _ _ lst EL E i), (ham_block_val _ _ _ _ _ _ lst EL E' i).
  rewrite TH by (intros; apply contrib_add; apply hop_step_add).
  rewrite TC by (intros; apply contrib_add; apply coul_step_add). ring.
Qed.

(** dictionaries passed by a caller have each key once *)
Definition wf_input {Key} (x : input Key C) : Prop := match x with InDict d => NoDup (map fst d) | _ => True end.
Definition wf_arg {Key} (a : arg Key) : Prop := match a with ANone _ _ => True | AFresh _ _ x => wf_input x | ASelf _ _ => False end.
Definition wf_op (o : qop) : Prop :=
  match o with QAdd _ hs cl | QChange _ hs cl => wf_arg hs /\ wf_arg cl | QRemove _ _ => True end.

Lemma spin_double_nodup : forall Key keq shift (d : dict Key C), NoDup (map fst d) -> NoDup (map fst (spin_double K keq shift d)).
Proof.
  intros Key keq shift d. unfold spin_double. intros ND.
  assert (G : forall l s : dict Key C, NoDup (map fst s) -> NoDup (map fst (fold_left (fun s e => dset keq s (shift (fst e)) (snd e)) l s))).
  { induction l; simpl; auto. intros s Hs. apply IHl. now apply dset_nodup. }
  now apply G.
Qed.
Lemma coulomb_spin_nodup : forall d, NoDup (map fst d) -> NoDup (map fst (coulomb_spin K herm_c m_less_n nss d)).
Proof.
  intros d ND. unfold coulomb_spin. revert ND. generalize d at 1 3. induction d as [|[[[[m n] k] l] U] d IH]; intros s ND; cbn [fold_left]; auto.
  apply IH. apply dset_nodup. destruct m_less_n; [|apply dset_nodup];
    repeat match goal with |- context [if ?x then _ else _] => destruct x end; repeat apply dset_nodup; auto.
Qed.
Lemma hs_nodup : forall az x, wf_input x -> NoDup (map fst (make_hsingle_dict K isz herm_hs spin nss az x)).
Proof.
  intros az x W. unfold make_hsingle_dict. destruct x as [d|l|[[a b] c] f|]; try constructor;
    destruct spin; try apply spin_double_nodup; try apply dupdate_nodup; try exact W; constructor.
Qed.
Lemma cl_nodup : forall x, wf_input x -> NoDup (map fst (make_coulomb_dict K isz herm_c m_less_n spin nss x)).
Proof.
  intros x W. unfold make_coulomb_dict. destruct x as [d|l|[[a b] c] f|]; try constructor;
    destruct spin; try apply coulomb_spin_nodup; try apply dupdate_nodup; try exact W; constructor.
Qed.
Lemma hs_arg_nodup : forall self az a, wf_arg a -> NoDup (map fst (hs_arg K isz herm_hs spin nss self az a)).
Proof. intros self az [|x|] W; cbn [hs_arg]; [constructor|now apply hs_nodup|destruct W]. Qed.
Lemma cl_arg_nodup : forall self a, wf_arg a -> NoDup (map fst (cl_arg K isz herm_c m_less_n spin nss self a)).
Proof. intros self [|x|] W; cbn [cl_arg]; [constructor|now apply cl_nodup|destruct W]. Qed.

Lemma init_fresh : forall si hs cl q, NoDup (map fst hs) -> NoDup (map fst cl) ->
  init_hamiltonian K herm_hs herm_c m_less_n ham_ssq_q si hs cl = Some q -> ham_fresh q /\ wf_qd q.
Proof.
  intros si hs cl q W1 W2 H. unfold init_hamiltonian in H. destruct (Params.ham_add _ _ _ _ _ _ _ _ _) as [h|] eqn:E; [|discriminate].
  injection H as <-. split; [|split; auto]. intros b Hb. cbn [q_si q_hs q_cl q_ham] in *.
  destruct (ham_add_spec _ _ _ _ _ E) as (A & _). exists (h b). split; auto.
Qed.

Local Notation qd_step := (qd_step K isz herm_hs herm_c m_less_n ham_ssq_q spin nss).
Local Notation qd_run := (qd_run K isz herm_hs herm_c m_less_n ham_ssq_q spin nss).
Local Notation qd_init := (qd_init K isz herm_hs herm_c m_less_n ham_ssq_q spin nss).
Lemma step_fresh : forall o q q', wf_op o -> ham_fresh q -> wf_qd q -> qd_step q o = Some q' -> ham_fresh q' /\ wf_qd q'.
Proof.
  intros o q q' W F (W1 & W2) H. destruct o as [hs cl|hs cl|lst]; cbn [Params.qd_step] in H.
  - destruct W as (Wh & Wc). unfold qd_add in H.
    assert (S1 : forall Key (a : arg Key) g s, wf_arg a -> seen K spin a g s = g) by (intros Key [|x|] g s X; try reflexivity; destruct X).
    rewrite !S1 in H by auto.
    destruct (Params.ham_add _ _ _ _ _ _ _ _ _) as [h|] eqn:E; [|discriminate]. injection H as <-. split.
    + unfold ham_fresh. cbn [q_si q_hs q_cl q_ham]. eapply ham_fresh_step; [exact F|exact E| | | |].
      * intros D HD. apply dadd_total; auto.
      * intros D HD. apply dadd_total; auto.
      * intros k Hk. now apply dadd_keys in Hk.
      * intros k Hk. now apply dadd_keys in Hk.
    + split; cbn [q_hs q_cl]; now apply dadd_nodup.
  - destruct W as (Wh & Wc). unfold qd_change in H.
    pose proof (hs_arg_nodup (q_hs K q) true hs Wh) as N1. pose proof (cl_arg_nodup (q_cl K q) cl Wc) as N2.
    set (gh := hs_arg K isz herm_hs spin nss (q_hs K q) true hs) in *. set (gc := cl_arg K isz herm_c m_less_n spin nss (q_cl K q) cl) in *.
    destruct (dchange K isz eq2 true (q_hs K q) gh) as [hs' dh] eqn:E1. destruct (dchange K isz eq4 true (q_cl K q) gc) as [cl' dc] eqn:E2.
    destruct (Params.ham_add _ _ _ _ _ _ _ _ _) as [h|] eqn:E; [|discriminate]. injection H as <-. split.
    + unfold ham_fresh. cbn [q_si q_hs q_cl q_ham]. eapply ham_fresh_step; [exact F|exact E| | | |].
      * intros D HD. pose proof (dchange_total K isz eq2 D HD gh (q_hs K q) N1) as T. rewrite E1 in T. exact T.
      * intros D HD. pose proof (dchange_total K isz eq4 D HD gc (q_cl K q) N2) as T. rewrite E2 in T. exact T.
      * intros k Hk. pose proof (dchange_kept K isz eq2 gh (q_hs K q) k) as T. rewrite E1 in T. exact (T Hk).
      * intros k Hk. pose proof (dchange_kept K isz eq4 gc (q_cl K q) k) as T. rewrite E2 in T. exact (T Hk).
    + split; cbn [q_hs q_cl].
      * pose proof (dchange_nodup K isz eq2 gh (q_hs K q) W1) as T. now rewrite E1 in T.
      * pose proof (dchange_nodup K isz eq4 gc (q_cl K q) W2) as T. now rewrite E2 in T.
  - unfold qd_remove in H. destruct (remove_fock_states (q_si K q) lst) as [si|]; [|discriminate]. now apply (init_fresh si _ _ _ W1 W2).
Qed.

(** Every history of successful calls, with arguments that are not the stored dictionaries themselves. *)
Theorem C18_fresh : forall si hs cl os q0 q, wf_input hs -> wf_input cl -> Forall wf_op os ->
  qd_init si hs cl = Some q0 -> qd_run q0 os = Some q -> ham_fresh q.
Proof.
  intros si hs cl os q0 q W1 W2 WO E0 E.
  assert (I : ham_fresh q0 /\ wf_qd q0) by (apply (init_fresh _ _ _ _ (hs_nodup false hs W1) (cl_nodup cl W2) E0)).
  clear E0. revert q0 I E. induction WO as [|o os Wo _ IH]; intros q0 (F & W) E.
  - cbn in E. injection E as <-. auto.
  - cbn in E. destruct (qd_step q0 o) as [q1|] eqn:E1; [|discriminate]. apply (IH q1); auto. now apply (step_fresh o q0 q1).
Qed.

(** *** what a caller names *)
(** the last row for a key *)
Definition row_of {Key} (keq : forall a b : Key, {a = b} + {a <> b}) (l : list (Key * C)) (k : Key) : option C :=
  option_map snd (find (fun e => if keq k (fst e) then true else false) (rev l)).
Lemma row_dget : forall Key (keq : forall a b : Key, {a = b} + {a <> b}) (l : list (Key * C)) k, row_of keq l k = dget keq (rev l) k.
Proof.
  intros Key keq l k. unfold row_of. induction (rev l) as [|[k' v] r IH]; auto. cbn [find fst dget]. destruct (keq k k'); auto.
Qed.
(** the matrix element named by hsingle: dict, rows, or the entries of an array (with herm_hs only i <= j is read;
    zeros only count for change) *)
Definition named_hs (zeros_count : bool) (x : input (nat * nat) C) (k : nat * nat) : option C :=
  match x with
  | InDict l | InList l => row_of eq2 l k
  | InArr (n, _, _) f =>
      if (Nat.ltb (fst k) n && Nat.ltb (snd k) n && (negb herm_hs || Nat.leb (fst k) (snd k)) && (negb (isz (f k)) || zeros_count))%bool
      then Some (f k) else None
  | InOther => None
  end.
(** with spin symmetry: the element for both spins *)
Definition both_spins (f : nat * nat -> option C) (k : nat * nat) : option C :=
  let '(i, j) := k in
  if (Nat.ltb i nss && Nat.ltb j nss)%bool then f (i, j)
  else if (Nat.leb nss i && Nat.leb nss j)%bool then f (i - nss, j - nss)%nat else None.
Definition given_hs (zeros_count : bool) (x : input (nat * nat) C) (k : nat * nat) : option C :=
  if spin then both_spins (named_hs zeros_count x) k else named_hs zeros_count x k.
(** with spin symmetry only elements between the nss orbitals are named *)
Definition orbitals {Key} (ok : Key -> Prop) (f : Key -> option C) : Prop := forall k v, f k = Some v -> ok k.
Definition hs_orb (k : nat * nat) : Prop := (fst k < nss /\ snd k < nss)%nat.

Lemma hs_dict_get : forall az x k, wf_input x -> (spin = true -> orbitals hs_orb (named_hs az x)) ->
  dget eq2 (make_hsingle_dict K isz herm_hs spin nss az x) k = given_hs az x k.
Proof.
  intros az x k W O.
  assert (B : forall k, match match x with InDict d => Some d | InList l => Some (dupdate eq2 [] l)
        | InArr (n, _, _) f => Some (dupdate eq2 [] (arr_items K isz (hs_keys herm_hs n) f az)) | InOther => None end with
      | None => None | Some d => dget eq2 d k end = named_hs az x k).
  { clear k O. intros k. destruct x as [d|l|[[n b] c] f|]; cbn [named_hs]; auto.
    - rewrite row_dget. symmetry. apply (last_of_nodup eq2 d k W).
    - rewrite row_dget. rewrite dupdate_get. unfold last_of. now destruct (dget eq2 (rev l) k).
    - rewrite arr_items_get by apply hs_keys_nodup. destruct (in_dec eq2 k (hs_keys herm_hs n)) as [H|H].
      + apply hs_keys_in in H. destruct H as (H1 & H2 & H3). apply Nat.ltb_lt in H1, H2. rewrite H1, H2. cbn [andb].
        destruct herm_hs; cbn [negb orb]; [rewrite (proj2 (Nat.leb_le _ _) (H3 eq_refl))|]; auto.
      + destruct (Nat.ltb_spec (fst k) n), (Nat.ltb_spec (snd k) n); cbn [andb]; auto.
        destruct herm_hs eqn:Eh; cbn [negb orb andb].
        * destruct (Nat.leb_spec (fst k) (snd k)); cbn [andb]; auto. exfalso. apply H. apply hs_keys_in. auto.
        * exfalso. apply H. apply hs_keys_in. repeat split; auto. discriminate. }
  unfold make_hsingle_dict, given_hs. pose proof (hs_nodup az x W) as ND. unfold make_hsingle_dict in ND.
  destruct (match x with InDict d => Some d | InList l => _ | InArr _ _ => _ | InOther => None end) as [d|] eqn:Ed.
  2: { destruct spin; [|apply B]. cbn [dget]. unfold both_spins. destruct k as [i j]. rewrite <- !B. now destruct (Nat.ltb i nss && Nat.ltb j nss)%bool, (Nat.leb nss i && Nat.leb nss j)%bool. }
  destruct spin; [|apply B]. specialize (O eq_refl).
  assert (NDd : NoDup (map fst d)).
  { destruct x as [d'|l|[[n b] c] f|]; try discriminate; injection Ed as <-; try exact W; apply dupdate_nodup; constructor. }
  rewrite (spin_double_get K eq2 (fun k => (fst k + nss, snd k + nss)%nat)
    (fun k => if (Nat.leb nss (fst k) && Nat.leb nss (snd k))%bool then Some (fst k - nss, snd k - nss)%nat else None)) by
    (auto; intros [i j] [i0 j0]; cbn [fst snd]; destruct (Nat.leb_spec nss i), (Nat.leb_spec nss j); cbn [andb]; (split; intros E; [try discriminate E; injection E as <- <-; f_equal; lia|injection E as -> ->; try lia; f_equal; f_equal; lia])).
  rewrite !B. destruct k as [i j]. cbn [fst snd both_spins].
  assert (Z : ~ (i < nss /\ j < nss)%nat -> named_hs az x (i, j) = None).
  { intros H. destruct (named_hs az x (i, j)) as [v|] eqn:E; auto. exfalso. apply H. apply (O _ _ E). }
  destruct (Nat.leb_spec nss i), (Nat.leb_spec nss j), (Nat.ltb_spec i nss), (Nat.ltb_spec j nss); cbn [andb]; try lia; auto;
    try (rewrite Z by lia; auto). rewrite B. now destruct (named_hs az x (i - nss, j - nss)%nat).
Qed.

(** Coulomb elements: dict or rows *)
Definition named_cl (x : input (nat * nat * nat * nat) C) (k : nat * nat * nat * nat) : option C :=
  match x with InDict l | InList l => row_of eq4 l k | _ => None end.
(** rows with U = 0 are skipped by the code, see C18_coulomb_zero_refuted *)
Definition no_zero_row (x : input (nat * nat * nat * nat) C) : Prop :=
  match x with InList l => forall k, ~ In (k, 0) l | _ => True end.
Lemma cl_dict_get : forall x k, spin = false -> wf_input x -> no_zero_row x ->
  dget eq4 (make_coulomb_dict K isz herm_c m_less_n spin nss x) k = named_cl x k.
Proof.
  intros x k -> W Z. unfold make_coulomb_dict. destruct x as [d|l|sh f|]; cbn [named_cl]; auto.
  - rewrite row_dget. symmetry. apply (last_of_nodup eq4 d k W).
  - rewrite row_dget.
    replace (filter (fun e => negb (isz (snd e))) l) with l.
    + rewrite dupdate_get. unfold last_of. now destruct (dget eq4 (rev l) k).
    + cbn [no_zero_row] in Z. clear - Z isz_spec. induction l as [|[k' v] l IH]; auto. cbn [filter snd].
      destruct (isz v) eqn:E; [exfalso; apply isz_spec in E; subst; apply (Z k'); now left|]. cbn [negb]. f_equal.
      apply IH. intros k2 H. apply (Z k2). now right.
Qed.

(** *** the values after a history *)
Definition arg_of {Key} (g : input Key C -> Key -> option C) (a : arg Key) (k : Key) : option C :=
  match a with AFresh _ _ x => g x k | _ => None end.
Definition or0 (o : option C) : C := match o with Some v => v | None => 0 end.
(** add adds to the named entries; change sets them *)
Definition hs_after (f : nat * nat -> C) (o : qop) : nat * nat -> C :=
  match o with
  | QAdd _ hs _ => fun k => f k + or0 (arg_of (given_hs false) hs k)
  | QChange _ hs _ => fun k => match arg_of (given_hs true) hs k with Some v => v | None => f k end
  | QRemove _ _ => f
  end.
Definition cl_after (f : nat * nat * nat * nat -> C) (o : qop) : nat * nat * nat * nat -> C :=
  match o with
  | QAdd _ _ cl => fun k => f k + or0 (arg_of named_cl cl k)
  | QChange _ _ cl => fun k => match arg_of named_cl cl k with Some v => v | None => f k end
  | QRemove _ _ => f
  end.
Definition hs_op_ok (o : qop) : Prop :=
  match o with
  | QAdd _ (AFresh _ _ x) _ => spin = true -> orbitals hs_orb (named_hs false x)
  | QChange _ (AFresh _ _ x) _ => spin = true -> orbitals hs_orb (named_hs true x)
  | _ => True
  end.
Definition cl_op_ok (o : qop) : Prop :=
  match o with QAdd _ _ (AFresh _ _ x) | QChange _ _ (AFresh _ _ x) => no_zero_row x | _ => True end.

Lemma step_hs_val : forall o q q' k, wf_op o -> hs_op_ok o -> qd_step q o = Some q' ->
  val K eq2 (q_hs K q') k = hs_after (val K eq2 (q_hs K q)) o k.
Proof.
  intros o q q' k W OK H. destruct o as [hs cl|hs cl|lst]; cbn [Params.qd_step hs_after] in *.
  - destruct W as (Wh & Wc). unfold qd_add in H. destruct (Params.ham_add _ _ _ _ _ _ _ _ _) as [h|] eqn:E; [|discriminate].
    injection H as <-. cbn [q_hs]. rewrite dadd_val by now apply hs_arg_nodup. f_equal.
    destruct hs as [|x|]; cbn [hs_arg arg_of or0]; auto; [|destruct Wh]. unfold val. rewrite hs_dict_get by auto. reflexivity.
  - destruct W as (Wh & Wc). unfold qd_change in H.
    pose proof (dchange_val K isz isz_spec eq2 (hs_arg K isz herm_hs spin nss (q_hs K q) true hs) (q_hs K q) k (hs_arg_nodup (q_hs K q) true hs Wh)) as V.
    destruct (dchange K isz eq2 true (q_hs K q) _) as [hs' dh] eqn:E1. destruct (dchange K isz eq4 true (q_cl K q) _) as [cl' dc].
    destruct (Params.ham_add _ _ _ _ _ _ _ _ _) as [h|] eqn:E; [|discriminate]. injection H as <-. cbn [q_hs fst] in *. rewrite V.
    destruct hs as [|x|]; cbn [hs_arg arg_of]; auto; [|destruct Wh]. now rewrite hs_dict_get by auto.
  - unfold qd_remove in H. destruct (remove_fock_states (q_si K q) lst) as [si|]; [|discriminate].
    unfold init_hamiltonian in H. destruct (Params.ham_add _ _ _ _ _ _ _ _ _) as [h|] eqn:E; [|discriminate]. now injection H as <-.
Qed.
Lemma step_cl_val : forall o q q' k, spin = false -> wf_op o -> cl_op_ok o -> qd_step q o = Some q' ->
  val K eq4 (q_cl K q') k = cl_after (val K eq4 (q_cl K q)) o k.
Proof.
  intros o q q' k Hs W OK H. destruct o as [hs cl|hs cl|lst]; cbn [Params.qd_step cl_after] in *.
  - destruct W as (Wh & Wc). unfold qd_add in H. destruct (Params.ham_add _ _ _ _ _ _ _ _ _) as [h|] eqn:E; [|discriminate].
    injection H as <-. cbn [q_cl]. rewrite dadd_val by now apply cl_arg_nodup. f_equal.
    destruct cl as [|x|]; cbn [cl_arg arg_of or0]; auto; [|destruct Wc]. unfold val. rewrite cl_dict_get; auto; now destruct hs.
  - destruct W as (Wh & Wc). unfold qd_change in H.
    pose proof (dchange_val K isz isz_spec eq4 (cl_arg K isz herm_c m_less_n spin nss (q_cl K q) cl) (q_cl K q) k (cl_arg_nodup (q_cl K q) cl Wc)) as V.
    destruct (dchange K isz eq2 true (q_hs K q) _) as [hs' dh] eqn:E1. destruct (dchange K isz eq4 true (q_cl K q) _) as [cl' dc].
    destruct (Params.ham_add _ _ _ _ _ _ _ _ _) as [h|] eqn:E; [|discriminate]. injection H as <-. cbn [q_cl fst] in *. rewrite V.
    destruct cl as [|x|]; cbn [cl_arg arg_of]; auto; [|destruct Wc]. rewrite cl_dict_get; auto; now destruct hs.
  - unfold qd_remove in H. destruct (remove_fock_states (q_si K q) lst) as [si|]; [|discriminate].
    unfold init_hamiltonian in H. destruct (Params.ham_add _ _ _ _ _ _ _ _ _) as [h|] eqn:E; [|discriminate]. now injection H as <-.
Qed.
Lemma hs_after_ext : forall os f g, (forall k, f k = g k) -> forall k, fold_left hs_after os f k = fold_left hs_after os g k.
Proof.
  induction os as [|o os IH]; cbn [fold_left]; auto. intros f g H. apply IH. intros k. destruct o; cbn [hs_after]; rewrite ?H; auto.
Qed.
Lemma cl_after_ext : forall os f g, (forall k, f k = g k) -> forall k, fold_left cl_after os f k = fold_left cl_after os g k.
Proof.
  induction os as [|o os IH]; cbn [fold_left]; auto. intros f g H. apply IH. intros k. destruct o; cbn [cl_after]; rewrite ?H; auto.
Qed.
(** The stored values: add adds exactly to the named entries, change sets exactly the named entries. *)
Theorem C18_values : forall si hs cl os q0 q, wf_input hs -> wf_input cl -> Forall wf_op os ->
  qd_init si hs cl = Some q0 -> qd_run q0 os = Some q ->
  ((spin = true -> orbitals hs_orb (named_hs false hs)) -> Forall hs_op_ok os ->
   forall k, val K eq2 (q_hs K q) k = fold_left hs_after os (fun k => or0 (given_hs false hs k)) k) /\
  (spin = false -> no_zero_row cl -> Forall cl_op_ok os ->
   forall k, val K eq4 (q_cl K q) k = fold_left cl_after os (fun k => or0 (named_cl cl k)) k).
Proof.
  intros si hs cl os q0 q W1 W2 WO E0 E. unfold Params.qd_init, init_hamiltonian in E0.
  destruct (Params.ham_add _ _ _ _ _ _ _ _ _) as [h|] eqn:Eh; [|discriminate]. injection E0 as <-. split.
  - intros O OK k. rewrite (hs_after_ext os _ (val K eq2 (make_hsingle_dict K isz herm_hs spin nss false hs))).
    2: { intros k'. unfold val. rewrite hs_dict_get by auto. reflexivity. }
    match type of E with qd_run ?q1 os = _ => change (make_hsingle_dict K isz herm_hs spin nss false hs) with (q_hs K q1); revert E; generalize q1 end.
    revert k. clear W1 W2 O Eh h. induction WO as [|o os Wo _ IH]; intros k q1 E; [cbn in *; now injection E as <-|].
    pose proof (Forall_inv OK) as O1. pose proof (Forall_inv_tail OK) as O2. cbn in E. destruct (qd_step q1 o) as [q2|] eqn:E1; [|discriminate].
    rewrite (IH O2 k q2 E). cbn [fold_left]. apply hs_after_ext. intros k'. now apply step_hs_val.
  - intros Hs O OK k. rewrite (cl_after_ext os _ (val K eq4 (make_coulomb_dict K isz herm_c m_less_n spin nss cl))).
    2: { intros k'. unfold val. rewrite cl_dict_get by auto. reflexivity. }
    match type of E with qd_run ?q1 os = _ => change (make_coulomb_dict K isz herm_c m_less_n spin nss cl) with (q_cl K q1); revert E; generalize q1 end.
    revert k. clear W1 W2 O Eh h. induction WO as [|o os Wo _ IH]; intros k q1 E; [cbn in *; now injection E as <-|].
    pose proof (Forall_inv OK) as O1. pose proof (Forall_inv_tail OK) as O2. cbn in E. destruct (qd_step q1 o) as [q2|] eqn:E1; [|discriminate].
    rewrite (IH O2 k q2 E). cbn [fold_left]. apply cl_after_ext. intros k'. now apply step_cl_val.
Qed.

(** Repeating a change has no effect. *)
Theorem C18_change_twice : forall q hs cl q', wf_arg hs -> wf_arg cl -> qd_step q (QChange K hs cl) = Some q' ->
  exists q'', qd_step q' (QChange K hs cl) = Some q'' /\ q_si K q'' = q_si K q' /\ q_hs K q'' = q_hs K q' /\ q_cl K q'' = q_cl K q' /\
    forall b i, q_ham K q'' b i = q_ham K q' b i.
Proof.
  intros q hs cl q' Wh Wc H. cbn [Params.qd_step] in *. unfold qd_change in H.
  assert (Sh : forall s, hs_arg K isz herm_hs spin nss s true hs = hs_arg K isz herm_hs spin nss (q_hs K q) true hs) by (destruct hs; [auto|auto|destruct Wh]).
  assert (Sc : forall s, cl_arg K isz herm_c m_less_n spin nss s cl = cl_arg K isz herm_c m_less_n spin nss (q_cl K q) cl) by (destruct cl; [auto|auto|destruct Wc]).
  pose proof (hs_arg_nodup (q_hs K q) true hs Wh) as N1. pose proof (cl_arg_nodup (q_cl K q) cl Wc) as N2.
  unfold qd_change. rewrite (Sh (q_hs K q')), (Sc (q_cl K q')).
  set (gh := hs_arg K isz herm_hs spin nss (q_hs K q) true hs) in *. set (gc := cl_arg K isz herm_c m_less_n spin nss (q_cl K q) cl) in *.
  pose proof (fun k => dchange_val K isz isz_spec eq2 gh (q_hs K q) k N1) as V1. pose proof (fun k => dchange_val K isz isz_spec eq4 gc (q_cl K q) k N2) as V2.
  destruct (dchange K isz eq2 true (q_hs K q) gh) as [hs' dh]. destruct (dchange K isz eq4 true (q_cl K q) gc) as [cl' dc].
  destruct (Params.ham_add _ _ _ _ _ _ dh dc _) as [h|] eqn:E; [|discriminate]. injection H as <-. cbn [q_hs q_cl q_si q_ham fst] in *.
  rewrite (dchange_nothing K isz isz_spec eq2 gh hs'). 2: { intros k w Hin. rewrite V1. apply dget_nodup with (keq := eq2) in Hin; auto. now rewrite Hin. }
  rewrite (dchange_nothing K isz isz_spec eq4 gc cl'). 2: { intros k w Hin. rewrite V2. apply dget_nodup with (keq := eq4) in Hin; auto. now rewrite Hin. }
  destruct (ham_add_spec _ _ _ _ _ E) as (A & _).
  destruct (ham_add_some (q_si K q) [] [] h) as (h2 & E2).
  { intros b Hb m. specialize (A b Hb). destruct (ham_block_lst _ _ _ _ _ _ A) as (lst & EL).
    apply (ham_block_ok _ _ _ _ m lst EL). destruct (proj1 (ham_block_ok _ _ _ _ _ lst EL) (ex_intro _ _ A)) as (P & _).
    split; [exact P|]. split; intros k []. }
  rewrite E2. eexists. split; [reflexivity|]. cbn [q_si q_hs q_cl q_ham]. repeat split; auto. intros b i.
  destruct (ham_add_spec _ _ _ _ _ E2) as (B1 & B2). destruct (in_dec eqblk b (blocks (q_si K q))) as [Hb|Hb].
  - destruct (ham_block_lst _ _ _ _ _ _ (B1 b Hb)) as (lst & EL). rewrite (ham_block_val _ _ _ _ _ _ lst EL (B1 b Hb) i).
    unfold total. cbn [rsum]. ring.
  - now rewrite B2.
Qed.

(** *** the history never raises, and the stored blocks are the second-quantised Hamiltonian *)
Section Operator.
Variables (n : nat) (name : string).
Hypothesis Hn : (1 <= n)%nat.
Definition by_sz : bool := match ix_of name n with IxSz | IxSsq => true | _ => false end.
(** levels in range; when the blocks have definite sz, spin is conserved *)
Definition hs_key_ok (k : nat * nat) : Prop :=
  (fst k < n /\ snd k < n)%nat /\ (by_sz = true -> spin_of n (fst k) = spin_of n (snd k)).
Definition cl_key_ok (q : nat * nat * nat * nat) : Prop := let '(m, n', k, l) := q in
  (m < n /\ n' < n /\ k < n /\ l < n)%nat /\ (by_sz = true -> (spin_of n m + spin_of n n' = spin_of n k + spin_of n l)%Z).
Definition op_keys_ok (o : qop) : Prop :=
  match o with
  | QAdd _ hs cl => (forall k, In k (map fst (hs_arg K isz herm_hs spin nss [] false hs)) -> hs_key_ok k) /\
                    (forall k, In k (map fst (cl_arg K isz herm_c m_less_n spin nss [] cl)) -> cl_key_ok k)
  | QChange _ hs cl => (forall k, In k (map fst (hs_arg K isz herm_hs spin nss [] true hs)) -> hs_key_ok k) /\
                    (forall k, In k (map fst (cl_arg K isz herm_c m_less_n spin nss [] cl)) -> cl_key_ok k)
  | QRemove _ lst => (ix_of name n = IxCharge \/ ix_of name n = IxSz) /\ forall k, In k lst -> (k < 2 ^ n)%nat
  end.
Definition si_reached (si : SI) : Prop :=
  exists rops, reachable_si n name rops si /\ (rops = [] \/ ix_of name n = IxCharge \/ ix_of name n = IxSz).

Lemma remove_nc : forall si lst si', remove_fock_states si lst = Some si' -> si_ncharge si' = si_ncharge si.
Proof.
  intros si lst si' H. unfold remove_fock_states in H.
  destruct (si_indexing si); try (injection H as <-; reflexivity); (destruct (forallb _ lst); [|discriminate]);
    destruct (keep_blocks _ _ _) as [c j]; try (injection H as <-; reflexivity);
    destruct (si_szlst_lin si); try discriminate; destruct (keep_blocks2 _ _ _); injection H as <-; reflexivity.
Qed.
Lemma reached_shape : forall si, si_reached si -> si_indexing si = ix_of name n /\ si_nsingle si = n /\ si_ncharge si = (n + 1)%nat.
Proof.
  intros si (rops & RS & H). pose proof RS as (_ & Hk & E & _).
  assert (NC : forall ops s s', remove_many s ops = Some s' -> si_ncharge s' = si_ncharge s).
  { induction ops as [|o ops IH]; cbn; intros s s' X; [congruence|]. destruct (remove_fock_states s o) as [s1|] eqn:E1; [|discriminate].
    rewrite (IH _ _ X). eapply remove_nc; eauto. }
  assert (N : si_ncharge si = (n + 1)%nat).
  { rewrite (NC _ _ _ E). unfold si_init. destruct (ix_of name n); reflexivity. }
  destruct H as [->|H].
  - cbn in E. injection E as <-. split; [apply init_ix|]. split; [apply init_n|auto].
  - destruct (remove_history_ok n name rops H Hk) as (si' & E' & A & B & _). rewrite E in E'. injection E' as <-. auto.
Qed.
Lemma szlow_in : forall c, Nat.even n = true -> (c <= n)%nat -> In (- (Z.of_nat c mod 2))%Z (szrange c n).
Proof.
  intros c He Hc. unfold szrange, range2. apply in_map_iff. apply half_split in He. set (h := Nat.div2 n) in *.
  unfold szmax. set (s := Z.min (Z.of_nat c) (Z.of_nat n - Z.of_nat c)).
  assert (P : (Z.of_nat c mod 2 = s mod 2)%Z).
  { unfold s. destruct (Z.min_spec (Z.of_nat c) (Z.of_nat n - Z.of_nat c)) as [(_ & ->)|(_ & ->)]; auto.
    rewrite He. rewrite Nat2Z.inj_add. replace (Z.of_nat h + Z.of_nat h - Z.of_nat c)%Z with (Z.of_nat c + (Z.of_nat h - Z.of_nat c) * 2)%Z by ring.
    now rewrite Z.mod_add. }
  assert (S0 : (0 <= s)%Z) by (unfold s; lia).
  pose proof (Z.mod_pos_bound s 2 ltac:(lia)) as MB. pose proof (Z.div_mod s 2 ltac:(lia)) as DM.
  exists (Z.to_nat (s / 2)). assert (D0 : (0 <= s / 2)%Z) by (apply Z.div_pos; lia). split; [rewrite Z2Nat.id by auto; lia|].
  apply in_seq. split; [lia|]. replace (s + 1 - - s + 1)%Z with ((s + 1) * 2)%Z by ring. rewrite Z.div_mul by lia. lia.
Qed.
Lemma block_range : forall si b, si_reached si -> In b (blocks si) ->
  (fst b <= n)%nat /\ match snd b with
                      | None => by_sz = false
                      | Some z => by_sz = true /\ In z (szrange (fst b) n)
                      end.
Proof.
  intros si b R Hb. destruct (reached_shape si R) as (EI & EN & EC). unfold ham_blocks in Hb. unfold by_sz.
  rewrite EI, EN, EC in Hb. destruct (ix_of name n) eqn:Eix.
  1,2: apply in_map_iff in Hb; destruct Hb as (c & <- & Hc); apply in_seq in Hc; cbn [fst snd]; split; [lia|reflexivity].
  1: apply in_flat_map in Hb; destruct Hb as (c & Hc & Hb); apply in_seq in Hc; apply in_map_iff in Hb;
     destruct Hb as (z & <- & Hz); cbn [fst snd]; repeat split; auto; lia.
  apply in_flat_map in Hb; destruct Hb as (c & Hc & Hb); apply in_seq in Hc; apply in_map_iff in Hb;
     destruct Hb as (z & <- & Hz); cbn [fst snd]; repeat split; auto; [lia|].
  destruct ham_ssq_q; auto. destruct Hz as [<-|[]]. apply szlow_in; [|lia].
  unfold ix_of in Eix. repeat match type of Eix with context [if ?x then _ else _] => destruct x eqn:? end; try discriminate; rewrite ?Bool.andb_true_iff in *; tauto.
Qed.

Definition full_op (q : QD) : op C := oplus C (osum C (coul_op K herm_c m_less_n) (q_cl K q)) (osum C (hop_op K herm_hs) (q_hs K q)).
Lemma ham_block_operator : forall si hs cl b m, si_reached si -> In b (blocks si) ->
  (forall k, In k (map fst hs) -> hs_key_ok k) -> (forall k, In k (map fst cl) -> cl_key_ok k) ->
  exists lst m', get_lst si (fst b) (snd b) None = Some lst /\ ham_block si hs cl b m = Some m' /\
    forall p r sp sr, block_state si lst p sp -> block_state si lst r sr ->
      m' (p, r) = m (p, r) + mel C (osum C (coul_op K herm_c m_less_n) cl) sp sr + mel C (osum C (hop_op K herm_hs) hs) sp sr.
Proof.
  intros si hs cl b m R Hb KH KC. destruct (block_range si b R Hb) as (Hc & Hz). destruct R as (rops & RS & _).
  unfold Params.ham_block. destruct b as [c [z|]]; cbn [fst snd] in *.
  - destruct Hz as (Hz1 & Hz2).
    assert (Hix : ix_of name n = IxSz \/ ix_of name n = IxSsq) by (unfold by_sz in Hz1; destruct (ix_of name n); auto; discriminate).
    destruct (C15_sz_block K n name rops si herm_c m_less_n cl c z m RS Hix) as (blk & m1 & E1 & E2 & V1); auto.
    { intros m2 n2 k l U Hin. destruct (KC (m2, n2, k, l)) as (A & B); auto. apply in_map_iff. exists ((m2, n2, k, l), U). auto. }
    destruct (C14_sz_block K n name rops si herm_hs hs c z m1 RS Hix) as (blk' & m2 & E1' & E2' & V2); auto.
    { intros i j h Hin. destruct (KH (i, j)) as (A & B); auto. apply in_map_iff. exists ((i, j), h). auto. }
    rewrite E1 in E1'. injection E1' as <-. rewrite E1, E2, E2'. exists blk, m2. repeat split; auto.
    intros p r sp sr Bp Br. now rewrite (V2 p r sp sr Bp Br), (V1 p r sp sr Bp Br).
  - destruct (C15_charge_block K n name rops si herm_c m_less_n cl c m RS) as (blk & m1 & E1 & E2 & V1); auto.
    { intros m2 n2 k l U Hin. apply (KC (m2, n2, k, l)). apply in_map_iff. exists ((m2, n2, k, l), U). auto. }
    destruct (C14_charge_block K n name rops si herm_hs hs c m1 RS) as (blk' & m2 & E1' & E2' & V2); auto.
    { intros i j h Hin. apply (KH (i, j)). apply in_map_iff. exists ((i, j), h). auto. }
    rewrite E1 in E1'. injection E1' as <-. rewrite E1, E2, E2'. exists blk, m2. repeat split; auto.
    intros p r sp sr Bp Br. now rewrite (V2 p r sp sr Bp Br), (V1 p r sp sr Bp Br).
Qed.
Lemma ham_add_reached : forall si hs cl h, si_reached si ->
  (forall k, In k (map fst hs) -> hs_key_ok k) -> (forall k, In k (map fst cl) -> cl_key_ok k) -> exists h', ham_add si hs cl h = Some h'.
Proof.
  intros si hs cl h R KH KC. apply ham_add_some. intros b Hb m.
  destruct (ham_block_operator si hs cl b m R Hb KH KC) as (lst & m' & _ & E & _). eauto.
Qed.
Definition good_qd (q : QD) : Prop := si_reached (q_si K q) /\
  (forall k, In k (map fst (q_hs K q)) -> hs_key_ok k) /\ (forall k, In k (map fst (q_cl K q)) -> cl_key_ok k).
Lemma step_good : forall o q, wf_op o -> op_keys_ok o -> good_qd q -> exists q', qd_step q o = Some q' /\ good_qd q'.
Proof.
  intros o q W KO (R & KH & KC). destruct o as [hs cl|hs cl|lst]; cbn [Params.qd_step].
  - destruct W as (Wh & Wc). destruct KO as (O1 & O2). unfold qd_add.
    assert (S1 : forall Key (a : arg Key) g s, wf_arg a -> seen K spin a g s = g) by (intros Key [|x|] g s X; try reflexivity; destruct X).
    rewrite !S1 by auto.
    assert (Sh : hs_arg K isz herm_hs spin nss (q_hs K q) false hs = hs_arg K isz herm_hs spin nss [] false hs) by (destruct hs; [auto|auto|destruct Wh]).
    assert (Sc : cl_arg K isz herm_c m_less_n spin nss (q_cl K q) cl = cl_arg K isz herm_c m_less_n spin nss [] cl) by (destruct cl; [auto|auto|destruct Wc]).
    rewrite Sh, Sc. destruct (ham_add_reached (q_si K q) _ _ (q_ham K q) R O1 O2) as (h & ->). eexists. split; [reflexivity|].
    split; [exact R|]. cbn [q_hs q_cl]. split; intros k Hk; apply dadd_keys in Hk; destruct Hk; auto.
  - destruct W as (Wh & Wc). destruct KO as (O1 & O2). unfold qd_change.
    assert (Sh : hs_arg K isz herm_hs spin nss (q_hs K q) true hs = hs_arg K isz herm_hs spin nss [] true hs) by (destruct hs; [auto|auto|destruct Wh]).
    assert (Sc : cl_arg K isz herm_c m_less_n spin nss (q_cl K q) cl = cl_arg K isz herm_c m_less_n spin nss [] cl) by (destruct cl; [auto|auto|destruct Wc]).
    rewrite Sh, Sc. set (gh := hs_arg K isz herm_hs spin nss [] true hs) in *. set (gc := cl_arg K isz herm_c m_less_n spin nss [] cl) in *.
    pose proof (dchange_keys K isz eq2 gh (q_hs K q)) as A1. pose proof (dchange_keys K isz eq4 gc (q_cl K q)) as A2.
    pose proof (dchange_diff_keys K isz eq2 gh (q_hs K q)) as B1. pose proof (dchange_diff_keys K isz eq4 gc (q_cl K q)) as B2.
    destruct (dchange K isz eq2 true (q_hs K q) gh) as [hs' dh]. destruct (dchange K isz eq4 true (q_cl K q) gc) as [cl' dc].
    cbn [fst snd] in *. destruct (ham_add_reached (q_si K q) dh dc (q_ham K q) R) as (h & ->); auto. eexists. split; [reflexivity|].
    split; [exact R|]. cbn [q_hs q_cl]. split; intros k Hk; [apply A1 in Hk|apply A2 in Hk]; destruct Hk; auto.
  - destruct KO as (Hix & Hl). unfold qd_remove. destruct R as (rops & RS & _).
    assert (Hk : forall k, In k (concat (rops ++ [lst])) -> (k < 2 ^ n)%nat).
    { intros k Hk. rewrite concat_app, in_app_iff in Hk. destruct Hk as [Hk|Hk]; [now apply RS|]. cbn in Hk. rewrite app_nil_r in Hk. auto. }
    destruct (C06_remove_history n name (rops ++ [lst]) Hn Hix Hk) as (si' & E & _).
    assert (RM : forall ops s, remove_many s (ops ++ [lst]) = match remove_many s ops with None => None | Some s' => remove_fock_states s' lst end).
    { induction ops as [|o ops IH]; cbn; intros s0; [destruct (remove_fock_states s0 lst); auto|]. destruct (remove_fock_states s0 o); auto. }
    assert (RS' : reachable_si n name (rops ++ [lst]) si') by (repeat split; auto; tauto).
    rewrite RM in E. destruct RS as (_ & _ & E0 & _). rewrite E0 in E. rewrite E.
    assert (R' : si_reached si') by (exists (rops ++ [lst]); auto).
    unfold init_hamiltonian. destruct (ham_add_reached si' (q_hs K q) (q_cl K q) (fun _ => zeros) R' KH KC) as (h & ->).
    eexists. split; [reflexivity|]. split; auto.
Qed.

Theorem C18_operator : forall hs cl os, wf_input hs -> wf_input cl -> Forall wf_op os ->
  (forall k, In k (map fst (make_hsingle_dict K isz herm_hs spin nss false hs)) -> hs_key_ok k) ->
  (forall k, In k (map fst (make_coulomb_dict K isz herm_c m_less_n spin nss cl)) -> cl_key_ok k) ->
  Forall op_keys_ok os ->
  exists q0 q, qd_init (si_init n name) hs cl = Some q0 /\ qd_run q0 os = Some q /\
    forall b, In b (blocks (q_si K q)) ->
    exists lst, get_lst (q_si K q) (fst b) (snd b) None = Some lst /\
      forall p r sp sr, block_state (q_si K q) lst p sp -> block_state (q_si K q) lst r sr ->
        q_ham K q b (p, r) = mel C (full_op q) sp sr.
Proof.
  intros hs cl os W1 W2 WO KH KC KO.
  assert (R0 : si_reached (si_init n name)).
  { exists []. split; auto. repeat split; auto; [intros k []]. }
  destruct (ham_add_reached (si_init n name) _ _ (fun _ => zeros) R0 KH KC) as (h & Eh).
  assert (E0 : qd_init (si_init n name) hs cl = Some (mkQD K (si_init n name) (make_hsingle_dict K isz herm_hs spin nss false hs)
     (make_coulomb_dict K isz herm_c m_less_n spin nss cl) h)).
  { unfold Params.qd_init, init_hamiltonian. now rewrite Eh. }
  set (q0 := mkQD K _ _ _ h) in E0. exists q0.
  assert (G0 : good_qd q0) by (split; [exact R0|split; [exact KH|exact KC]]).
  assert (RUN : exists q, qd_run q0 os = Some q /\ good_qd q).
  { clear E0. clearbody q0. revert q0 G0. induction WO as [|o os Wo _ IH]; intros q0 G0; [exists q0; auto|].
    pose proof (Forall_inv KO) as O1. pose proof (Forall_inv_tail KO) as O2.
    destruct (step_good o q0 Wo O1 G0) as (q1 & E1 & G1). destruct (IH O2 q1 G1) as (q & E & G). exists q. cbn. rewrite E1. auto. }
  destruct RUN as (q & E & (R & H1 & H2)). exists q. split; auto. split; auto. intros b Hb.
  pose proof (C18_fresh _ _ _ _ _ _ W1 W2 WO E0 E) as F. destruct (F b Hb) as (m & Em & V).
  destruct (ham_block_operator (q_si K q) (q_hs K q) (q_cl K q) b zeros R Hb H1 H2) as (lst & m' & EL & Em' & V').
  rewrite Em in Em'. injection Em' as <-. exists lst. split; auto. intros p r sp sr Bp Br.
  rewrite V, (V' p r sp sr Bp Br). unfold full_op, zeros. unfold mel at 3, oplus. unfold mel. ring.
Qed.
End Operator.
End QuantumDot.

Print Assumptions C18_fresh.
Print Assumptions C18_values.
Print Assumptions C18_change_twice.
Print Assumptions C18_operator.

(** *** examples *)
Definition zisz (x : Cx ZRing) : bool := (Z.eqb (@re ZRing x) 0 && Z.eqb (@im ZRing x) 0)%bool.
Lemma zisz_spec : forall x : Cx ZRing, zisz x = true <-> x = @r0 (Cx ZRing).
Proof.
  intros [a b]. unfold zisz. cbn [re im]. rewrite Bool.andb_true_iff, !Z.eqb_eq. split.
  - intros (-> & ->). reflexivity.
  - intros E. injection E as -> ->. auto.
Qed.
(** two spins on one orbital with a tunnelling to a second orbital; 'sz' blocks *)
Definition p_hs : input (nat * nat) (Cx ZRing) := InList [((0, 0), ZC 5 0); ((0, 1), ZC 2 1); ((2, 2), ZC 5 0)].
Definition p_cl : input (nat * nat * nat * nat) (Cx ZRing) := InDict [((0, 2, 2, 0), ZC 9 0)].
Definition p_ops : list (qop ZRing) :=
  [QAdd ZRing (AFresh ZRing _ (InList [((2, 3), ZC 2 1)])) (ANone ZRing _);
   QChange ZRing (AFresh ZRing _ (InList [((0, 0), ZC 7 0); ((1, 1), ZC 3 0); ((2, 3), ZC 0 0)])) (AFresh ZRing _ (InDict [((0, 2, 2, 0), ZC 4 0)]));
   QRemove ZRing [15; 5];
   QAdd ZRing (ANone ZRing _) (AFresh ZRing _ (InDict [((1, 3, 3, 1), ZC 6 0)]))].
Definition p_run := match qd_init ZRing zisz true true true false false 0 (si_init 4 "sz") p_hs p_cl with
                    | None => None | Some q => qd_run ZRing zisz true true true false false 0 q p_ops end.
Example C18_case :
  match p_run with
  | None => None
  | Some q => Some (q_hs ZRing q, q_cl ZRing q, map (q_ham ZRing q (2, Some 0%Z)) (list_prod (seq 0 3) (seq 0 3)))
  end = Some ([((0, 0), ZC 7 0); ((0, 1), ZC 2 1); ((2, 2), ZC 5 0); ((2, 3), ZC 0 0); ((1, 1), ZC 3 0)],
              [((0, 2, 2, 0), ZC 4 0); ((1, 3, 3, 1), ZC 6 0)],
              [ZC 8 0; ZC 0 0; ZC 2 1; ZC 0 0; ZC 7 0; ZC 0 0; ZC 2 (-1); ZC 0 0; ZC 16 0]).
Proof. vm_compute. reflexivity. Qed.
(** the hypotheses of C18_fresh, C18_values and C18_operator hold for this history *)
Example C18_case_hyps :
  wf_input ZRing p_hs /\ wf_input ZRing p_cl /\ Forall (wf_op ZRing) p_ops /\
  no_zero_row ZRing p_cl /\ Forall (cl_op_ok ZRing) p_ops /\
  (forall k, In k (map fst (make_hsingle_dict ZRing zisz true false 0 false p_hs)) -> hs_key_ok 4 "sz" k) /\
  (forall k, In k (map fst (make_coulomb_dict ZRing zisz true true false 0 p_cl)) -> cl_key_ok 4 "sz" k) /\
  Forall (op_keys_ok ZRing zisz true true true false 0 4 "sz") p_ops.
Proof.
  assert (ND : forall (a : nat * nat * nat * nat), NoDup [a]) by (intros; constructor; [intros []|constructor]).
  split; [exact I|]. split; [apply ND|]. split.
  { repeat constructor; try exact I; try apply ND; intros []. }
  split; [exact I|]. split.
  { repeat constructor. }
  assert (FA : forall A (P : A -> Prop) l, Forall P l -> forall k, In k l -> P k) by (intros A P l H; now apply Forall_forall).
  split; [|split].
  - apply FA. repeat constructor.
  - apply FA. repeat constructor.
  - unfold p_ops. apply Forall_cons; [split; apply FA; repeat constructor|]. apply Forall_cons; [split; apply FA; repeat constructor|].
    apply Forall_cons; [split; [right; reflexivity|]; intros k [<-|[<-|[]]]; cbn; lia|].
    apply Forall_cons; [split; apply FA; repeat constructor|]. constructor.
Qed.

(** *** what does not hold *)
(** qd.add(hsingle=qd.hsingle): the stored dictionary is doubled, the Hamiltonian is tripled, because the loop at 780-785
    changes the dictionary that is then used to fill the Hamiltonian. *)
Theorem C18_add_own_dictionary_refuted :
  exists q0 q, qd_init ZRing zisz true true true false false 0 (si_init 1 "charge") (InList [((0, 0), ZC 1 0)]) (InDict []) = Some q0 /\
    qd_step ZRing zisz true true true false false 0 q0 (QAdd ZRing (ASelf ZRing _) (ANone ZRing _)) = Some q /\
    q_hs ZRing q = [((0, 0), ZC 2 0)] /\ q_ham ZRing q (1, None) (0, 0) = ZC 3 0 /\
    ~ ham_fresh ZRing true true true false q.
Proof.
  eexists. eexists. split; [vm_compute; reflexivity|]. split; [vm_compute; reflexivity|]. split; [reflexivity|].
  split; [vm_compute; reflexivity|]. intros F. destruct (F (1, None)) as (m & Em & V); [cbn; auto|].
  specialize (V (0, 0)). revert V. vm_compute in Em. injection Em as <-. vm_compute. discriminate.
Qed.
(** qd.change(coulomb=[[0, 1, 1, 0, 0]]): a row with U = 0 is skipped, so that an interaction cannot be switched off
    with a list (with a dict it can). *)
Theorem C18_coulomb_zero_refuted :
  exists q0, qd_init ZRing zisz true true true false false 0 (si_init 2 "charge") (InDict []) (InDict [((0, 1, 1, 0), ZC 7 0)]) = Some q0 /\
    (exists q, qd_step ZRing zisz true true true false false 0 q0 (QChange ZRing (ANone ZRing _) (AFresh ZRing _ (InList [((0, 1, 1, 0), ZC 0 0)]))) = Some q /\
       q_cl ZRing q = [((0, 1, 1, 0), ZC 7 0)] /\ q_ham ZRing q (2, None) (0, 0) = ZC 7 0) /\
    (exists q, qd_step ZRing zisz true true true false false 0 q0 (QChange ZRing (ANone ZRing _) (AFresh ZRing _ (InDict [((0, 1, 1, 0), ZC 0 0)]))) = Some q /\
       q_cl ZRing q = [((0, 1, 1, 0), ZC 0 0)] /\ q_ham ZRing q (2, None) (0, 0) = ZC 0 0).
Proof.
  eexists. split; [vm_compute; reflexivity|].
  split; (eexists; split; [vm_compute; reflexivity|split; [vm_compute; reflexivity|vm_compute; reflexivity]]).
Qed.
