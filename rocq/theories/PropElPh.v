(** Properties C30 and C49: the electron-phonon terms of the first-order approaches. *)
From Coq Require Import String List Arith Lia ZArith Bool Permutation Ring QArith.
From Verif Require Import Base Bits Indexing IndexingProofs RemoveProofs Binom SsqProofs Qn
  PropIndexing DMIndex DMIndexProofs DMReach PropDMIndex CRing Layout Coherences Kernel KernelProofs
  PauliProofs CohProofs CohKernels CohCurrents PropKernel MasterEq PropMaster ElPh.
Import ListNotations.
Open Scope nat_scope.
Local Notation length := List.length.

(** ** Systems with phonon baths: builder/builder_elph.py.
    si is a StateIndexingDM, si_elph a StateIndexingDMc made from it (create_si_elph 119-124);
    remove_states (142-144) and remove_fock_states (146-149) act on both. *)
Inductive elph (n : nat) (name : string) : SI -> DMI -> SI -> DMI -> Prop :=
| ep_init : forall name2 si dm si2 dm2, ix_of name2 n = ix_of name n ->
    call_init KDM n name = (si, dm) -> call_init KDMc n name2 = (si2, dm2) -> elph n name si dm si2 dm2
| ep_states : forall si dm si2 dm2 lst si' dm' si2' dm2', elph n name si dm si2 dm2 -> selection si lst ->
    call_set KDM dm si lst = (si', dm') -> call_set KDMc dm2 si2 (dm_statesdm dm') = (si2', dm2') ->
    elph n name si' dm' si2' dm2'
| ep_fock : forall si dm si2 dm2 lin si' dm' si2' dm2', elph n name si dm si2 dm2 ->
    (ix_of name n = IxCharge \/ ix_of name n = IxSz) -> (forall k, In k lin -> k < 2 ^ n) ->
    call_remove KDM dm si lin = Some (si', dm') -> call_remove KDMc dm2 si2 lin = Some (si2', dm2') ->
    elph n name si' dm' si2' dm2'.
(** optionally one remove_coherences, which acts on si only *)
Inductive elph_system (n : nat) (name : string) (si : SI) : Lay -> Lay -> Prop :=
| es_plain : forall dm si2 dm2, elph n name si dm si2 dm2 -> elph_system n name si (lay_of dm) (lay_of dm2)
| es_removed : forall dm si2 dm2 E dE L, elph n name si dm si2 dm2 -> 1 <= dm_npauli dm -> (0 <= dE)%Q ->
    remove_coherences (qfar E dE) (lay_of dm) = Some L -> elph_system n name si L (lay_of dm2).

Lemma si_init_ix : forall n name name2, ix_of name2 n = ix_of name n -> si_init n name2 = si_init n name.
Proof. intros n name name2 H. unfold si_init. now rewrite H. Qed.

Lemma elph_facts : forall n name si dm si2 dm2, 1 <= n -> ix_of name n <> IxSsq -> elph n name si dm si2 dm2 ->
  reach KDM n name si dm /\ reach KDMc n name si2 dm2 /\
  with_chargelst si2 [] = with_chargelst si [] /\ (forall c, considered dm2 c = considered dm c).
Proof.
  intros n name si dm si2 dm2 Hn Hix H. induction H as
    [name2 si dm si2 dm2 E I1 I2 | si dm si2 dm2 lst si' dm' si2' dm2' H IH SEL I1 I2
    | si dm si2 dm2 lin si' dm' si2' dm2' H IH IX LIN I1 I2].
  - assert (I2' : call_init KDMc n name = (si2, dm2)).
    { rewrite <- I2. unfold call_init. now rewrite (si_init_ix n name name2 E). }
    split; [now apply reach_init|]. split; [now apply reach_init|].
    unfold call_init, call_use_all, set_statesdm in I1, I2'. injection I1 as <- <-. injection I2' as <- <-. split; [reflexivity|].
    intros c. unfold considered.
    match goal with |- nth c (dm_statesdm (set_statesdm' ?a ?b ?d ?e ?f ?g ?l)) _ = nth c (dm_statesdm (set_statesdm' ?a' ?b' ?d' ?e' ?f' ?g' ?l')) _ =>
      destruct (dm_fields a b d e f g l) as (_ & _ & -> & _); destruct (dm_fields a' b' d' e' f' g' l') as (_ & _ & -> & _) end.
    reflexivity.
  - destruct IH as (R1 & R2 & W & C0).
    pose proof (reach_set KDM n name si dm lst si' dm' R1 SEL I1) as R1'.
    assert (GE : forall b, get_state si2 b = get_state si b).
    { intros b. assert (X : get_state (with_chargelst si2 []) b = get_state (with_chargelst si []) b) by now rewrite W. exact X. }
    assert (NE : si_nsingle si2 = si_nsingle si).
    { assert (X : si_nsingle (with_chargelst si2 []) = si_nsingle (with_chargelst si [])) by now rewrite W. exact X. }
    unfold call_set, set_statesdm in I1, I2. injection I1 as <- <-. cbn [snd] in I2, R1' |- *.
    assert (ST : dm_statesdm (set_statesdm' KDM (si_indexing si) (ind_qn si) (qn_ind si) (si_ncharge si) (dm_dictdm dm) (lst ++ [[]])) = lst ++ [[]]).
    { apply (dm_fields KDM (si_indexing si) (ind_qn si) (qn_ind si) (si_ncharge si) (dm_dictdm dm) (lst ++ [[]])). }
    rewrite ST in I2.
    assert (SEL2 : selection si2 (lst ++ [[]])).
    { destruct SEL as (S1 & S2 & S3). unfold selection. rewrite NE, app_length. split; [lia|].
      split; intros c; rewrite nth_app_nil; auto. destruct (S3 c) as (A & B). split; auto. intros k Hk. rewrite GE. auto. }
    split; auto. split.
    { apply (reach_set KDMc n name si2 dm2 (lst ++ [[]]) si2' dm2' R2 SEL2). unfold call_set, set_statesdm. exact I2. }
    injection I2 as <- <-. split; auto.
    intros c. unfold considered. rewrite ST.
    match goal with |- nth c (dm_statesdm (set_statesdm' ?a ?b ?d ?e ?f ?g ?l)) _ = _ =>
      destruct (dm_fields a b d e f g l) as (_ & _ & -> & _) end.
    now rewrite !nth_app_nil.
  - destruct IH as (R1 & R2 & W & C0).
    split; [apply (reach_remove KDM n name si dm lin si' dm' R1 IX LIN I1)|].
    split; [apply (reach_remove KDMc n name si2 dm2 lin si2' dm2' R2 IX LIN I2)|].
    assert (IXE : si_indexing si = ix_of name n).
    { apply reach_reached in R1; auto. apply (g_ix _ _ _ (rc_good _ _ _ _ _ R1)). }
    assert (RE : remove_fock_states si2 lin = remove_fock_states si lin).
    { assert (X : forall s, (si_indexing s = IxCharge \/ si_indexing s = IxSz) ->
         remove_fock_states s lin = remove_fock_states (with_chargelst s []) lin).
      { intros s Hs. unfold remove_fock_states, with_chargelst. cbn. destruct Hs as [-> | ->]; reflexivity. }
      assert (IE : si_indexing si2 = si_indexing si).
      { assert (Y : si_indexing (with_chargelst si2 []) = si_indexing (with_chargelst si [])) by now rewrite W. exact Y. }
      rewrite (X si2), (X si), W; auto; rewrite ?IE, IXE; auto. }
    unfold call_remove in I1, I2. rewrite RE in I2. destruct (remove_fock_states si lin) as [s|]; [|discriminate].
    cbn [option_map] in I1, I2. unfold call_use_all, set_statesdm in I1, I2. injection I1 as <- <-. injection I2 as <- <-. split; [reflexivity|].
    intros c. unfold considered.
    match goal with |- nth c (dm_statesdm (set_statesdm' ?a ?b ?d ?e ?f ?g ?l)) _ = nth c (dm_statesdm (set_statesdm' ?a' ?b' ?d' ?e' ?f' ?g' ?l')) _ =>
      destruct (dm_fields a b d e f g l) as (_ & _ & -> & _); destruct (dm_fields a' b' d' e' f' g' l') as (_ & _ & -> & _) end.
    reflexivity.
Qed.

(** which pairs si_elph numbers *)
Lemma coherent_dec : forall si s t, {coherent si s t} + {~ coherent si s t}.
Proof.
  intros si s t. unfold coherent. destruct (si_indexing si); try (left; discriminate).
  destruct (get_state si s) as [x|].
  - destruct (get_state si t) as [y|].
    + destruct (Z.eq_dec (up_minus_down x) (up_minus_down y)) as [e|e].
      * left. intros _. exists x, y. auto.
      * right. intros H. destruct (H eq_refl) as (a & b & A & B & E). congruence.
    + right. intros H. destruct (H eq_refl) as (a & b & A & B & E). discriminate.
  - right. intros H. destruct (H eq_refl) as (a & b & A & B & E). discriminate.
Qed.
Lemma coherent_sym : forall si s t, coherent si s t -> coherent si t s.
Proof. intros si s t H E. destruct (H E) as (a & b & A & B & X). exists b, a. auto. Qed.
Lemma coherent_trans : forall si s t u, coherent si s t -> coherent si t u -> coherent si s u.
Proof.
  intros si s t u H1 H2 E. destruct (H1 E) as (a & b & A & B & X). destruct (H2 E) as (b' & d & B' & D & Y).
  exists a, d. split; auto. split; auto. congruence.
Qed.

Lemma elph_kept : forall n name si dm si2 dm2, 1 <= n -> ix_of name n <> IxSsq -> elph n name si dm si2 dm2 ->
  forall s t c, (0 <= c)%Z -> In s (states (lay_of dm) c) -> In t (states (lay_of dm) c) ->
  (out (ind0 (lay_of dm2) s t c) = false <-> coherent si s t) /\
  (ind0 (lay_of dm) s t c <> (-1)%Z <-> coherent si s t).
Proof.
  intros n name si dm si2 dm2 Hn Hix H s t c Hc Hs Ht.
  destruct (elph_facts _ _ _ _ _ _ Hn Hix H) as (R1 & R2 & W & CE).
  destruct (zc c Hc) as (k & ->). rewrite states_nat in Hs, Ht.
  pose proof Hs as Hs2. pose proof Ht as Ht2. rewrite <- CE in Hs2, Ht2.
  assert (CO : forall a b, coherent si2 a b <-> coherent si a b).
  { intros a b. assert (X : coherent (with_chargelst si2 []) a b <-> coherent (with_chargelst si []) a b) by now rewrite W. exact X. }
  assert (ST : exists x, get_state si s = Some x).
  { destruct (considered_charge KDM n name si dm Hn R1 k s Hs) as (_ & x & E & _). exists x. auto. }
  assert (SL : forall b bp q, get_ind_dm0 dm2 b bp k = Some q -> ind0 (lay_of dm2) b bp (Z.of_nat k) = q).
  { intros b bp q G. unfold ind0. apply nth_of_error. unfold get_ind_dm0 in G.
    assert (slot_at (lay_of dm2) b bp (Z.of_nat k) = dm0_slot dm2 b bp k) as ->; auto.
    unfold slot_at, dm0_slot.
    assert (KD : dm_kind dm2 = KDMc).
    { apply reach_reached in R2; auto. destruct (rc_make _ _ _ _ _ R2) as (qn & qi & d0 & lst & E & _).
      pose proof (dm_fields KDMc (ix_of name n) qn qi (n + 1) d0 (lst ++ [[]])) as F. rewrite <- E in F. tauto. }
    rewrite KD. simpl. now rewrite Nat2Z.id. }
  destruct (C08_numbering_dm n name si dm Hn Hix R1) as (D1 & D2 & D3 & _).
  destruct (C08_numbering_dmc n name si2 dm2 Hn Hix R2) as (M1 & M2 & M3 & _).
  pose proof (ind0_dm n name si dm Hn R1) as I0.
  destruct (Nat.eq_dec s t) as [<-|Hne].
  - assert (CC : coherent si s s) by (intros _; destruct ST as (x & E); exists x, x; auto).
    destruct (D1 s k Hs) as (q & _ & Eq & _). destruct (M1 s k Hs2) as (q2 & _ & Eq2 & _).
    rewrite (I0 _ _ _ _ Eq), (SL _ _ _ Eq2). split; split; auto; intros _.
    + apply Z.eqb_neq. lia.
    + lia.
  - destruct (coherent_dec si s t) as [CC|CC].
    + destruct (D2 s t k Hs Ht Hne CC) as (q & _ & Eq & _). destruct (M2 s t k Hs2 Ht2 Hne (proj2 (CO s t) CC)) as (q2 & _ & Eq2 & _).
      rewrite (I0 _ _ _ _ Eq), (SL _ _ _ Eq2). split; split; auto; intros _.
      * apply Z.eqb_neq. lia.
      * lia.
    + destruct (D3 s t k Hs Ht Hne CC) as (Eq & _).
      assert (CC2 : ~ coherent si2 s t) by (rewrite CO; auto).
      destruct (M3 s t k Hs2 Ht2 Hne CC2) as (Eq2 & _).
      rewrite (I0 _ _ _ _ Eq), (SL _ _ _ Eq2). split; split; intros X; try contradiction; discriminate.
Qed.

Lemma elph_system_facts : forall n name si L L2, 1 <= n -> ix_of name n <> IxSsq -> elph_system n name si L L2 ->
  system n name si L /\
  (forall s t c, (0 <= c)%Z -> In s (states L c) -> In t (states L c) -> out (ind0 L2 s t c) = out (ind0 L2 t s c)) /\
  (forall s a ap c, el L a ap c -> In s (states L c) -> out (ind0 L2 s a c) = out (ind0 L2 s ap c)).
Proof.
  intros n name si L L2 Hn Hix ES.
  assert (X : exists dm si2 dm2, elph n name si dm si2 dm2 /\ L2 = lay_of dm2 /\ system n name si L /\
    (forall c, (0 <= c)%Z -> states L c = states (lay_of dm) c) /\
    (forall a ap c, el L a ap c -> ind0 (lay_of dm) a ap c <> (-1)%Z)).
  { destruct ES as [dm si2 dm2 H|dm si2 dm2 E dE L H Hp HE RM].
    - exists dm, si2, dm2. destruct (elph_facts _ _ _ _ _ _ Hn Hix H) as (R1 & _).
      split; auto. split; auto. split; [now constructor|]. split; auto. intros a ap c (_ & _ & _ & A). auto.
    - exists dm, si2, dm2. destruct (elph_facts _ _ _ _ _ _ Hn Hix H) as (R1 & _).
      pose proof (rm_fields (qfar E dE) (qfar_sym E dE) (fun b => qfar_diag E dE b HE) (lay_of dm)
        (layout_reach _ _ _ _ Hn Hix R1) (fresh_reach _ _ _ _ Hn Hix R1) Hp L RM) as RF.
      split; auto. split; auto. split; [eapply sys_removed; eauto|].
      destruct RF as (_ & _ & _ & _ & _ & ST & _ & _ & _ & I). split; [intros; apply ST|].
      intros a ap c (_ & _ & _ & A) Z. rewrite I, Z in A. apply A. reflexivity. }
  destruct X as (dm & si2 & dm2 & H & -> & SY & ST & NZ). split; auto.
  pose proof (elph_kept _ _ _ _ _ _ Hn Hix H) as KP.
  assert (EQ : forall p q : bool, (p = false <-> q = false) -> p = q).
  { intros [] [] X; auto; [now apply X|symmetry; now apply X]. }
  split.
  - intros s t c Hc Hs Ht. rewrite ST in Hs, Ht by auto. apply EQ.
    destruct (KP s t c Hc Hs Ht) as (-> & _). destruct (KP t s c Hc Ht Hs) as (-> & _). split; apply coherent_sym.
  - intros s a ap c EL Hs. pose proof (NZ _ _ _ EL) as NE. destruct EL as (Hc & Ha & Hap & _).
    rewrite ST in Hs, Ha, Hap by auto.
    apply (proj2 (KP a ap c Hc Ha Hap)) in NE. apply EQ.
    destruct (KP s a c Hc Hs Ha) as (-> & _). destruct (KP s ap c Hc Hs Hap) as (-> & _). split; intros X.
    + eapply coherent_trans; eauto.
    + eapply coherent_trans; [eauto|now apply coherent_sym].
Qed.

(** ** The kernels with the phonon terms: base generate_coupling_terms, then the phonon part *)
Section Kernels.
Variable K : CRing.
Local Notation C := (Cx K).
Variables (L L2 : Lay) (nl nb : nat).
Definition elph_pauli_calls (pf : nat -> nat -> bool -> K) (wp : nat -> Z -> K) : list (call K) :=
  generate_kern_pauli K L (fun b bp c => pauli_coupling K L nl pf b bp c ++ ph_pauli K L L2 nb wp b bp c).
Definition elph_lindblad_calls (h : K) tL tV (E : nat -> K) : list (call K) :=
  generate_kern K L E (fun b bp c => lindblad_coupling K L nl h tL b bp c ++ ph_lindblad K L nb h tV b bp c).
Definition elph_vn1_calls (h : K) T F V w (E : nat -> K) : list (call K) :=
  generate_kern K L E (fun b bp c => vn1_coupling K L nl T F b bp c ++ ph_vn1 K L L2 nb h V w b bp c).
Definition elph_red_calls (h : K) T F V w (E : nat -> K) : list (call K) :=
  generate_kern K L E (fun b bp c => red_coupling K L nl T F b bp c ++ ph_red K L L2 nb h V w b bp c).
End Kernels.

Section Props.
Variable K : CRing.
Local Notation C := (Cx K).
Local Open Scope rng_scope.
Add Ring KrPE : (rth K).
Add Ring CrPE : (rth (Cx K)).
Variables (n : nat) (name : string) (si : SI) (L L2 : Lay).
Hypotheses (Hn : (1 <= n)%nat) (Hix : ix_of name n <> IxSsq) (ES : elph_system n name si L L2).
Let SY : system n name si L := proj1 (elph_system_facts n name si L L2 Hn Hix ES).
Let GS := proj1 (proj2 (elph_system_facts n name si L L2 Hn Hix ES)).
Let GT := proj2 (proj2 (elph_system_facts n name si L L2 Hn Hix ES)).
Let LO : layout L := system_layout n name si L Hn Hix SY.
Let CH := system_charge n name si L Hn Hix SY.
Local Notation N := (charge_of si).
Local Notation SS := (cons_states L).
Local Notation dens := (dens K L N).
Local Notation tab F q := (tab K L N F q).
Local Notation act := (act K).

(** *** C30 *)
(** extra calls whose traces over each charge block vanish do not change a charge-weighted sum of rows *)
Lemma extra_calls : forall E cpl ph phi f,
  (forall b bp c x, el L b bp c -> In x (cpl b bp c) -> call_ok K L b bp c x /\ (match x with CEnergy _ _ _ _ _ => False | _ => True end)) ->
  (forall b bp c x, el L b bp c -> In x (ph b bp c) -> call_ok K L b bp c x /\ (match x with CEnergy _ _ _ _ _ => False | _ => True end)) ->
  (forall c, (0 <= c)%Z -> im (rsum (fun b => rsum (gval K L phi) (ph b b c)) (states L c)) = 0) ->
  weighted_action K L (ly_ndm0r L) (kern_of K L (generate_kern K L E (fun b bp c => cpl b bp c ++ ph b bp c))) phi (fun b => f (N b)) =
  weighted_action K L (ly_ndm0r L) (kern_of K L (generate_kern K L E cpl)) phi (fun b => f (N b)).
Proof.
  intros E cpl ph phi f OK1 OK2 TR. unfold weighted_action.
  assert (OK : forall b bp c x, el L b bp c -> In x (cpl b bp c ++ ph b bp c) ->
    call_ok K L b bp c x /\ (match x with CEnergy _ _ _ _ _ => False | _ => True end)).
  { intros b bp c x EL Hx. apply in_app_iff in Hx. destruct Hx; eauto. }
  rewrite !(diag_rows_weighted K L LO phi E) by auto.
  rewrite !rsum_im. apply rsum_ext. intros c Hc. apply charges_in in Hc.
  rewrite (rsum_ext C _ (fun b => ofR (f (N b)) * rsum (gval K L phi) (cpl b b c ++ ph b b c))
     (fun b => ofR (f (N b)) * rsum (gval K L phi) (cpl b b c) + ofR (f (Z.to_nat c)) * rsum (gval K L phi) (ph b b c)) (states L c)).
  2:{ intros b Hb. rewrite rsum_app, (CH c b) by (auto; lia). ring. }
  rewrite rsum_plus, rsum_mul_l, im_add, im_mul. cbn [re im ofR]. rewrite TR by lia. ring.
Qed.

Lemma diag_el : forall b c, (0 <= c)%Z -> In b (states L c) -> el L b b c.
Proof. intros b c Hc Hb. destruct (lo_diag L LO b c Hc Hb) as (A & _). repeat split; auto. lia. Qed.

Lemma vn1_traceless : forall nb h V w phi c, (0 <= c)%Z ->
  im (rsum (fun b => rsum (gval K L phi) (ph_vn1 K L L2 nb h V w b b c)) (states L c)) = 0.
Proof.
  intros nb h V w phi c Hc.
  rewrite (rsum_ext C _ _ (fun b => rsum (fun l => code K L phi c (vP K L2 N w l) (gam K h V l) (fun a v x _ => gam2 K h V l a v x) b b) (leads nb))).
  2:{ intros b Hb. apply (vn1_code K L L2 N CH GS GT). apply diag_el; auto. }
  rewrite rsum_swap, rsum_im. apply (rsum_0 K). intros l _. apply (code_trace K L LO phi c Hc _ h (V l)); reflexivity.
Qed.
Lemma red_traceless : forall nb h V w phi c, (0 <= c)%Z ->
  im (rsum (fun b => rsum (gval K L phi) (ph_red K L L2 nb h V w b b c)) (states L c)) = 0.
Proof.
  intros nb h V w phi c Hc.
  rewrite (rsum_ext C _ _ (fun b => rsum (fun l => code K L phi c (rP K L2 N w l) (gam K h V l) (fun a v x _ => gam2 K h V l a v x) b b) (leads nb))).
  2:{ intros b Hb. apply (red_code K L L2 N CH GS GT). apply diag_el; auto. }
  rewrite rsum_swap, rsum_im. apply (rsum_0 K). intros l _. apply (code_trace K L LO phi c Hc _ h (V l)); reflexivity.
Qed.
Lemma lin_traceless : forall nb (h : K) tV phi c, (0 <= c)%Z -> h + h = 1 ->
  im (rsum (fun b => rsum (gval K L phi) (ph_lindblad K L nb h tV b b c)) (states L c)) = 0.
Proof.
  intros nb h tV phi c Hc Hh.
  rewrite (rsum_ext C _ _ (fun b => Ci K * rsum (fun l => rsum (fun q => dis K L phi h c (fun x y => tV l x y q) b b) [false; true]) (leads nb))).
  2:{ intros b Hb. rewrite (lin_ph_elem K L LO N CH phi nb h tV b b c) by auto. f_equal. apply rsum_ext. intros l _.
      apply rsum_ext. intros q _. apply (diss_block K L LO N CH phi h c Hc); auto. }
  rewrite rsum_mul_l, (rsum_swap C). rewrite (rsum_0 C).
  - rewrite im_mul. change (re (0 : C)) with (0 : K). change (im (0 : C)) with (0 : K). ring.
  - intros l _. rewrite rsum_swap. apply (rsum_0 C). intros q _. apply (lin_trace K L phi h); auto.
Qed.

(** what C30 says about a kernel [kern] with phonons and the kernel [base] without *)
Definition same_balance (size : nat) (kern base : Z * Z -> K) : Prop :=
  (forall j, (j < size)%nat -> trace_column K L kern j = 0) /\
  (forall phi (f : nat -> K), weighted_action K L size kern phi (fun b => f (N b)) =
                              weighted_action K L size base phi (fun b => f (N b))).

Lemma balance : forall size kern base, (ly_npauli L <= size)%nat ->
  (forall j, (j < size)%nat -> trace_column K L base j = 0) ->
  (forall phi (f : nat -> K), weighted_action K L size kern phi (fun b => f (N b)) =
                              weighted_action K L size base phi (fun b => f (N b))) -> same_balance size kern base.
Proof.
  intros size kern base Hs T W. split; auto. intros j Hj. rewrite <- (T j Hj).
  rewrite <- !(trace_weighted K n name si L Hn Hix SY size) by auto. apply (W (unit_vec K (Z.of_nat j)) (fun _ => 1)).
Qed.
Let NR : (ly_npauli L <= ly_ndm0r L)%nat.
Proof. rewrite (lo_size L LO). lia. Qed.

Theorem C30_vn1 : forall nl nb h T F V w E,
  same_balance (ly_ndm0r L) (kern_of K L (elph_vn1_calls K L L2 nl nb h T F V w E)) (kern_of K L (vn1_calls K L nl T F E)).
Proof.
  intros nl nb h T F V w E. apply balance; auto.
  - apply (proj1 (C28_vn1 K n name si L Hn Hix SY nl T F E)).
  - intros phi f. apply extra_calls.
    + apply vn1_ok; auto.
    + apply ph_vn1_ok.
    + apply vn1_traceless.
Qed.
Theorem C30_redfield : forall nl nb h T F V w E,
  same_balance (ly_ndm0r L) (kern_of K L (elph_red_calls K L L2 nl nb h T F V w E)) (kern_of K L (red_calls K L nl T F E)).
Proof.
  intros nl nb h T F V w E. apply balance; auto.
  - apply (proj1 (C29_redfield K n name si L Hn Hix SY nl T F E)).
  - intros phi f. apply extra_calls.
    + apply red_ok; auto.
    + apply ph_red_ok.
    + apply red_traceless.
Qed.
Theorem C30_lindblad : forall nl nb (h : K) tL tV E, h + h = 1 ->
  same_balance (ly_ndm0r L) (kern_of K L (elph_lindblad_calls K L nl nb h tL tV E)) (kern_of K L (lindblad_calls K L nl h tL E)).
Proof.
  intros nl nb h tL tV E Hh. apply balance; auto.
  - apply (proj1 (C27_lindblad K n name si L Hn Hix SY nl h tL E Hh)).
  - intros phi f. apply extra_calls.
    + apply lindblad_ok; auto.
    + apply ph_lindblad_ok.
    + intros. now apply lin_traceless.
Qed.

Lemma elph_pauli_row : forall nl nb pf wp phi b c, (0 <= c)%Z -> In b (states L c) ->
  act (ly_npauli L) (kern_of K L (elph_pauli_calls K L L2 nl nb pf wp)) phi (ind0 L b b c) =
  act (ly_npauli L) (kern_of K L (pauli_calls K L nl pf)) phi (ind0 L b b c) +
  rsum (fun l => rsum (fun a => prate K L2 N wp l b a * phi (ind0 L a a c) - prate K L2 N wp l a b * phi (ind0 L b b c)) (states L c)) (leads nb).
Proof.
  intros nl nb pf wp phi b c Hc Hb. unfold elph_pauli_calls, pauli_calls.
  rewrite (pauli_gen_row K L LO phi (fun b bp c => pauli_coupling K L nl pf b bp c ++ ph_pauli K L L2 nb wp b bp c)); auto.
  2:{ intros b' c' x Hc' Hb' Hx. apply in_app_iff in Hx. destruct Hx as [Hx|Hx].
      - apply (pauli_call_in K L LO nl pf b' c' x); auto.
      - apply (ph_pauli_in K L L2 LO nb wp b' c' x); auto. }
  rewrite (pauli_gen_row K L LO phi (pauli_coupling K L nl pf)); auto.
  2:{ intros b' c' x Hc' Hb' Hx. apply (pauli_call_in K L LO nl pf b' c' x); auto. }
  rewrite rsum_app. f_equal. apply (ph_pauli_val K L L2 LO N CH GS phi nb wp); auto.
Qed.
Theorem C30_pauli : forall nl nb pf wp,
  same_balance (ly_npauli L) (kern_of K L (elph_pauli_calls K L L2 nl nb pf wp)) (kern_of K L (pauli_calls K L nl pf)).
Proof.
  intros nl nb pf wp. apply balance; auto.
  - apply (C23_pauli_columns K n name si L Hn Hix SY).
  - intros phi f. unfold weighted_action. apply rsum_ext. intros c Hc. apply charges_in in Hc.
    rewrite (rsum_ext K _ _ (fun b => f (N b) * act (ly_npauli L) (kern_of K L (pauli_calls K L nl pf)) phi (ind0 L b b c) +
      f (Z.to_nat c) * rsum (fun l => rsum (fun a => prate K L2 N wp l b a * phi (ind0 L a a c) - prate K L2 N wp l a b * phi (ind0 L b b c)) (states L c)) (leads nb)) (states L c)).
    2:{ intros b Hb. rewrite elph_pauli_row by (auto; lia). rewrite (CH c b) by (auto; lia). ring. }
    rewrite rsum_plus, rsum_mul_l. rewrite (rsum_swap K). rewrite (rsum_0 K _ _ (leads nb)).
    + ring.
    + intros l _. apply (prate_trace K L L2 N wp l c (fun b => phi (ind0 L b b c))).
Qed.

(** the lead currents still sum to zero in the stationary state with phonons *)
Theorem C30_currents : forall nl nb (h : K) phi,
  (forall pf wp, stationary K (ly_npauli L) (kern_of K L (elph_pauli_calls K L L2 nl nb pf wp)) phi ->
     rsum (pauli_current K L phi pf) (leads nl) = 0) /\
  (forall tL tV E, h + h = 1 -> stationary K (ly_ndm0r L) (kern_of K L (elph_lindblad_calls K L nl nb h tL tV E)) phi ->
     rsum (lindblad_current K L phi tL) (leads nl) = 0) /\
  (forall T F V w E, hermitian K T -> stationary K (ly_ndm0r L) (kern_of K L (elph_vn1_calls K L L2 nl nb h T F V w E)) phi ->
     rsum (vn1_current K L phi T F) (leads nl) = 0) /\
  (forall T F V w E, hermitian K T -> stationary K (ly_ndm0r L) (kern_of K L (elph_red_calls K L L2 nl nb h T F V w E)) phi ->
     rsum (red_current K L phi T F) (leads nl) = 0).
Proof.
  intros nl nb h phi.
  assert (G : forall size kern base, (ly_npauli L <= size)%nat -> same_balance size kern base -> stationary K size kern phi ->
     weighted_action K L size base phi (fun b => rnat K (N b)) = 0).
  { intros size kern base Hs (_ & W) ST. rewrite <- (W phi (rnat K)). apply (stationary_weighted K n name si L Hn Hix SY); auto. }
  split; [|split; [|split]].
  - intros pf wp ST. rewrite (proj1 (C24_pauli_currents K n name si L Hn Hix SY nl pf phi (fun _ => 0))).
    eapply G; [auto|apply C30_pauli|eassumption].
  - intros tL tV E Hh ST. rewrite (proj1 (proj2 (C27_lindblad K n name si L Hn Hix SY nl h tL E Hh))).
    eapply G; [auto|apply C30_lindblad; auto|eassumption].
  - intros T F V w E HT ST. rewrite (proj1 (proj2 (C28_vn1 K n name si L Hn Hix SY nl T F E)) HT).
    eapply G; [auto|apply C30_vn1|eassumption].
  - intros T F V w E HT ST. rewrite (proj1 (proj2 (C29_redfield K n name si L Hn Hix SY nl T F E)) HT).
    eapply G; [auto|apply C30_redfield|eassumption].
Qed.

(** *** C49 *)
Theorem C49_pauli : forall nl nb pf wp phi b c, (0 <= c)%Z -> In b (states L c) ->
  act (ly_npauli L) (kern_of K L (elph_pauli_calls K L L2 nl nb pf wp)) phi (ind0 L b b c) =
  rsum (fun l => rate_lead K SS N (fun l s t => pf l (ind1 L s t (Z.of_nat (N t))) false)
                                  (fun l s t => pf l (ind1 L s t (Z.of_nat (N t))) true)
                           (fun s => re (dens phi s s)) l b) (leads nl) +
  rsum (fun l => rate_eq K SS (prate K L2 N wp l) (fun s => re (dens phi s s)) b) (leads nb).
Proof.
  intros nl nb pf wp phi b c Hc Hb. rewrite elph_pauli_row by auto.
  rewrite (C46_pauli K n name si L Hn Hix SY) by auto. f_equal. apply rsum_ext. intros l _.
  rewrite (prate_block K L L2 LO N CH wp l b c) by auto. apply rsum_ext. intros a Ha.
  rewrite !(dens_at K L N CH phi _ _ c) by auto. now rewrite !(rho_diag_real K L LO) by auto.
Qed.

(** the master equation of C46 plus one term for each phonon bath *)
Definition elph_master (E : nat -> K) (nl nb : nat) (lead bath : Op K -> nat -> Op K) (r : Op K) : Op K := fun s t =>
  master K SS E nl lead r s t + rsum (fun l => bath r l s t) (leads nb).

Lemma elph_is_master : forall nl nb E cpl ph (h : K) lead bath phi,
  h + h = 1 ->
  (forall b bp c x, el L b bp c -> In x (cpl b bp c) -> call_ok K L b bp c x /\ (match x with CEnergy _ _ _ _ _ => False | _ => True end)) ->
  (forall b bp c x, el L b bp c -> In x (ph b bp c) -> call_ok K L b bp c x /\ (match x with CEnergy _ _ _ _ _ => False | _ => True end)) ->
  (forall b bp c, el L b bp c -> rsum (gval K L phi) (cpl b bp c) = Ci K * rsum (fun l => lead (dens phi) l b bp) (leads nl)) ->
  (forall b bp c, el L b bp c -> rsum (gval K L phi) (ph b bp c) = Ci K * rsum (fun l => bath (dens phi) l b bp) (leads nb)) ->
  (forall l, herm_on K L (lead (dens phi) l)) -> (forall l, herm_on K L (bath (dens phi) l)) ->
  forall b bp c, el L b bp c ->
  rho K L (act (ly_ndm0r L) (kern_of K L (generate_kern K L E (fun b bp c => cpl b bp c ++ ph b bp c))) phi) b bp c =
  elph_master E nl nb lead bath (dens phi) b bp.
Proof.
  intros nl nb E cpl ph h lead bath phi Hh OK1 OK2 E1 E2 H1 H2 b bp c EL.
  set (both := fun (r : Op K) (_ : nat) s t => rsum (fun l => lead r l s t) (leads nl) + rsum (fun l => bath r l s t) (leads nb)).
  rewrite (kernel_is_master K L LO N CH phi 1 E _ h both Hh) with (c := c); auto.
  - unfold master, elph_master, both, master. cbn [leads seq rsum]. ring.
  - intros b' bp' c' x EL' Hx. apply in_app_iff in Hx. destruct Hx; eauto.
  - intros b' bp' c' EL'. rewrite rsum_app, (E1 _ _ _ EL'), (E2 _ _ _ EL'). unfold both. cbn [leads seq rsum]. ring.
  - intros l s t Hs Ht. unfold both. rewrite conj_add, !rsum_conj. f_equal; apply rsum_ext; intros l' _; [apply H1|apply H2]; auto.
Qed.

Theorem C49_lindblad : forall nl nb (h : K) tL tV E phi b bp c, h + h = 1 -> el L b bp c ->
  rho K L (act (ly_ndm0r L) (kern_of K L (elph_lindblad_calls K L nl nb h tL tV E)) phi) b bp c =
  elph_master E nl nb (lindblad_lead K SS N h tL) (ph_lindblad_bath K SS N h tV) (dens phi) b bp.
Proof.
  intros nl nb h tL tV E phi b bp c Hh EL. unfold elph_lindblad_calls.
  apply (elph_is_master nl nb E (lindblad_coupling K L nl h tL) (ph_lindblad K L nb h tV) h (lindblad_lead K SS N h tL) (ph_lindblad_bath K SS N h tV)); auto.
  - apply lindblad_ok; auto.
  - apply ph_lindblad_ok.
  - intros b' bp' c' (Hc & Hb & Hbp & _). apply lin_elem; auto.
  - intros b' bp' c' (Hc & Hb & Hbp & _). apply lin_ph_elem; auto.
  - intros l. apply (lin_herm K n name si L Hn Hix SY).
  - intros l. apply (lin_bath_herm K L LO N CH).
Qed.
Theorem C49_vn1 : forall nl nb (h : K) T F V w E phi b bp c, h + h = 1 -> hermitian K T -> el L b bp c ->
  rho K L (act (ly_ndm0r L) (kern_of K L (elph_vn1_calls K L L2 nl nb h T F V w E)) phi) b bp c =
  elph_master E nl nb (vn1_lead K SS N T (tab F false) (tab F true))
    (fun r l => ph_bath K SS N (vn_psi K SS) h (V l) (htab K L2 N w l) r) (dens phi) b bp.
Proof.
  intros nl nb h T F V w E phi b bp c Hh HT EL. unfold elph_vn1_calls.
  apply (elph_is_master nl nb E (vn1_coupling K L nl T F) (ph_vn1 K L L2 nb h V w) h (vn1_lead K SS N T (tab F false) (tab F true))
    (fun r l => ph_bath K SS N (vn_psi K SS) h (V l) (htab K L2 N w l) r)); auto.
  - apply vn1_ok; auto.
  - apply ph_vn1_ok.
  - intros b' bp' c' (Hc & Hb & Hbp & _). rewrite (vn1_elem K L LO N CH phi b' bp' c' Hc Hb Hbp nl T F HT).
    rewrite <- rsum_mul_l. apply rsum_ext. intros l _. unfold vn1_lead. symmetry. apply (i_mi K).
  - intros b' bp' c' EL'. apply (vn1_ph_elem K L L2 LO N CH GS GT); auto.
  - intros l s t Hs Ht. unfold vn1_lead. apply (comm_herm K L); auto.
    + intros s' t' _ _. apply HT.
    + apply sym_herm.
  - intros l s t _ _. apply (bath_herm K L L2 N phi h V w).
Qed.
Theorem C49_redfield : forall nl nb (h : K) T F V w E phi b bp c, h + h = 1 -> hermitian K T -> el L b bp c ->
  rho K L (act (ly_ndm0r L) (kern_of K L (elph_red_calls K L L2 nl nb h T F V w E)) phi) b bp c =
  elph_master E nl nb (red_lead K SS N T (tab F false) (tab F true))
    (fun r l => ph_bath K SS N (red_psi K SS) h (V l) (htab K L2 N w l) r) (dens phi) b bp.
Proof.
  intros nl nb h T F V w E phi b bp c Hh HT EL. unfold elph_red_calls.
  apply (elph_is_master nl nb E (red_coupling K L nl T F) (ph_red K L L2 nb h V w) h (red_lead K SS N T (tab F false) (tab F true))
    (fun r l => ph_bath K SS N (red_psi K SS) h (V l) (htab K L2 N w l) r)); auto.
  - apply red_ok; auto.
  - apply ph_red_ok.
  - intros b' bp' c' (Hc & Hb & Hbp & _). rewrite (red_elem K L LO N CH phi b' bp' c' Hc Hb Hbp nl T F HT).
    rewrite <- rsum_mul_l. apply rsum_ext. intros l _. unfold red_lead. symmetry. apply (i_mi K).
  - intros b' bp' c' EL'. apply (red_ph_elem K L L2 LO N CH GS GT); auto.
  - intros l s t Hs Ht. unfold red_lead. apply (comm_herm K L); auto.
    + intros s' t' _ _. apply HT.
    + intros s' t' Hs' Ht'. apply (Y_herm K L LO N CH phi T F l); auto.
  - intros l s t _ _. apply (bath_herm K L L2 N phi h V w).
Qed.
End Props.
Print Assumptions C30_pauli.
Print Assumptions C30_lindblad.
Print Assumptions C30_vn1.
Print Assumptions C30_redfield.
Print Assumptions C30_currents.
Print Assumptions C49_pauli.
Print Assumptions C49_lindblad.
Print Assumptions C49_vn1.
Print Assumptions C49_redfield.

(** ** Examples: two levels, two leads, two phonon baths *)
Definition ex_L2 : Lay := lay_of (snd (call_init KDMc 2 "charge")).
Definition ex_V (l a b : nat) : Cx QRing := @mkC QRing (qz (Z.of_nat (1 + l + 2 * a + b))) (qz (Z.of_nat a - Z.of_nat (b * b))).
Definition ex_w (l : nat) (k : Z) (q : bool) : Cx QRing := @mkC QRing (qz (Z.of_nat l + 2 * k + 1)) (qz (if q then k - 1 else 3 - k)).
Definition ex_tV (l a b : nat) (q : bool) : Cx QRing :=
  @mkC QRing (qz (Z.of_nat (1 + l + a) - (if q then 2 else 0))) (qz (Z.of_nat a - Z.of_nat (b * l))).
Definition ex_wp (l : nat) (k : Z) : ZRing := (Z.of_nat l + 3 * k + 1)%Z.
Local Notation exN := (charge_of ex_si).
Local Notation exS := (cons_states ex_L).
Example C30_system : elph_system 2 "charge" ex_si ex_L ex_L2.
Proof.
  apply (es_plain 2 "charge" ex_si ex_dm (fst (call_init KDMc 2 "charge"))).
  apply (ep_init 2 "charge" "charge"); reflexivity.
Qed.
(** the phonons connect the states 1 and 2; the column sums stay 0 *)
Example C30_case :
  kern_rows 4 (kern_of ZRing ex_L (pauli_calls ZRing ex_L 2 ex_pf)) =
    [[-18; 3; 7; 0]; [7; -18; 0; 11]; [11; 0; -26; 15]; [0; 15; 19; -26]]%Z /\
  kern_rows 4 (kern_of ZRing ex_L (elph_pauli_calls ZRing ex_L ex_L2 2 2 ex_pf ex_wp)) =
    [[-18; 3; 7; 0]; [7; -51; 27; 11]; [11; 33; -53; 15]; [0; 15; 19; -26]]%Z.
Proof. vm_compute. auto. Qed.
Example C49_case :
  map (fun k => qpair (rho QRing ex_L (act QRing 6 k ex_phiq) 1 2 1))
    [kern_of QRing ex_L (elph_vn1_calls QRing ex_L ex_L2 2 2 qhalf ex_Tq ex_Fq ex_V ex_w ex_Eq);
     kern_of QRing ex_L (elph_red_calls QRing ex_L ex_L2 2 2 qhalf ex_Tq ex_Fq ex_V ex_w ex_Eq);
     kern_of QRing ex_L (elph_lindblad_calls QRing ex_L 2 2 qhalf ex_tL ex_tV ex_Eq)] =
    [(28147, 44787); (29647, 24943); (-1945, -2859)]%Q /\
  qpair (elph_master QRing ex_L ex_Eq 2 2 (vn1_lead QRing exS exN ex_Tq (tab QRing ex_L exN ex_Fq false) (tab QRing ex_L exN ex_Fq true))
           (fun r l => ph_bath QRing exS exN (vn_psi QRing exS) qhalf (ex_V l) (htab QRing ex_L2 exN ex_w l) r)
           (dens QRing ex_L exN ex_phiq) 1 2) = (28147, 44787)%Q /\
  qpair (elph_master QRing ex_L ex_Eq 2 2 (lindblad_lead QRing exS exN qhalf ex_tL) (ph_lindblad_bath QRing exS exN qhalf ex_tV)
           (dens QRing ex_L exN ex_phiq) 1 2) = (-1945, -2859)%Q /\
  map (fun l => rate_eq ZRing exS (prate ZRing ex_L2 exN ex_wp l) (fun s => re (dens ZRing ex_L exN ex_phi s s)) 1) [0; 1] = [17; 19]%Z.
Proof. vm_compute. auto. Qed.

(** ** use_all_states after remove_states: BuilderElPh does not override use_all_states (builder_base.py 294-298), so
    si has all the states again and si_elph is left with the selection.  Then C30 fails: the column of state 2 does
    not sum to 0, although the table of phonon rates is 0 except for one pair of states that are both selected. *)
Definition stale_lst : list (list nat) := [[0]; [1; 2; 3]; [6; 7; 8; 9]; [11]; [15]].
Definition stale_si : SI := fst (call_init KDM 4 "sz").
Definition stale_set : SI * DMI := call_set KDM (snd (call_init KDM 4 "sz")) stale_si stale_lst.
Definition stale_dm : DMI := snd (call_use_all KDM (dm_dictdm (snd stale_set)) (fst stale_set)).
Definition stale_dm2 : DMI :=
  snd (call_set KDMc (snd (call_init KDMc 4 "sz")) (fst (call_init KDMc 4 "sz")) (dm_statesdm (snd stale_set))).
Example stale_selection : selection stale_si stale_lst.
Proof.
  split; [vm_compute; lia|]. split; intros c.
  - do 6 (destruct c as [|c]; [vm_compute; repeat constructor; simpl; lia|]). destruct c; constructor.
  - split.
    + do 6 (destruct c as [|c]; [vm_compute; repeat constructor; simpl; lia|]). destruct c; constructor.
    + intros k Hk. do 5 (destruct c as [|c]; [simpl in Hk;
        repeat (destruct Hk as [<-|Hk]; [eexists; vm_compute; repeat split|]); destruct Hk|]).
      destruct c; destruct Hk.
Qed.
Theorem C30_use_all_states_refuted : exists wp : nat -> Z -> ZRing,
  trace_column ZRing (lay_of stale_dm)
    (kern_of ZRing (lay_of stale_dm) (elph_pauli_calls ZRing (lay_of stale_dm) (lay_of stale_dm2) 0 1 (fun _ _ _ => 0%Z) wp)) 2 <> 0%Z.
Proof. exists (fun _ k => if (k =? 12)%Z then 1%Z else 0%Z). vm_compute. discriminate. Qed.
Print Assumptions C30_use_all_states_refuted.
