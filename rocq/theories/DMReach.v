(** Reachable states of the density-matrix indexing objects and the well-formedness they keep. *)
From Coq Require Import String List Arith Lia ZArith Bool Permutation.
From Verif Require Import Base Bits Indexing IndexingProofs RemoveProofs Binom SsqProofs Qn
  PropIndexing DMIndex DMIndexProofs.
Import ListNotations.
Open Scope nat_scope.
Local Notation length := List.length.

(** A list of considered states as a caller may give it: for each charge a duplicate-free list of
    states that have that charge; anything beyond charge n is empty. *)
Definition selection (si : SI) (lst : list (list nat)) : Prop :=
  si_nsingle si + 1 <= length lst /\
  (forall c, si_nsingle si < c -> nth c lst [] = []) /\
  (forall c, NoDup (nth c lst []) /\
     forall k, In k (nth c lst []) -> exists s, get_state si k = Some s /\ electrons s = c).

(** Objects reachable through the API: construction, use_all_states, set_statesdm with a
    selection, and (indexing 'charge' and 'sz', see C06 for 'Lin') remove_fock_states. *)
Inductive reach (kd : kind) (n : nat) (name : string) : SI -> DMI -> Prop :=
| reach_init : forall si dm, call_init kd n name = (si, dm) -> reach kd n name si dm
| reach_all : forall si dm si' dm', reach kd n name si dm ->
    call_use_all kd (dm_dictdm dm) si = (si', dm') -> reach kd n name si' dm'
| reach_set : forall si dm lst si' dm', reach kd n name si dm -> selection si lst ->
    call_set kd dm si lst = (si', dm') -> reach kd n name si' dm'
| reach_remove : forall si dm lin si' dm', reach kd n name si dm ->
    (ix_of name n = IxCharge \/ ix_of name n = IxSz) -> (forall k, In k lin -> k < 2 ^ n) ->
    call_remove kd dm si lin = Some (si', dm') -> reach kd n name si' dm'.

(** the indexing without what the calls appended to chargelst *)
Definition trim (si : SI) : SI := with_chargelst si (firstn (si_nsingle si + 1) (si_chargelst si)).

Record good (n : nat) (name : string) (si : SI) : Prop := {
  g_n : si_nsingle si = n;
  g_ix : si_indexing si = ix_of name n;
  g_nc : si_ncharge si = n + 1;
  g_len : n + 1 <= length (si_chargelst si);
  g_ext : forall c, n < c -> nth c (si_chargelst si) [] = [];
  g_live : exists live, si_ok (trim si) live /\ si_nmany si <= 2 ^ n /\
     ((ix_of name n = IxCharge \/ ix_of name n = IxSz) -> hist_inv (trim si) live);
  g_qn : ix_of name n = IxSz -> inverse_on (qn_ind si) (ind_qn si) (si_nmany si) /\ qn_meaning si
}.

Lemma with_same : forall si, with_chargelst si (si_chargelst si) = si.
Proof. destruct si; reflexivity. Qed.

Lemma with_with : forall si a b, with_chargelst (with_chargelst si a) b = with_chargelst si b.
Proof. reflexivity. Qed.

Lemma trim_full : forall si, length (si_chargelst si) = si_nsingle si + 1 -> trim si = si.
Proof. intros si H. unfold trim. rewrite <- H, firstn_all. apply with_same. Qed.

Lemma good_fresh : forall n name si live, si_nsingle si = n -> si_indexing si = ix_of name n ->
  si_ncharge si = n + 1 -> si_ok si live ->
  ((ix_of name n = IxCharge \/ ix_of name n = IxSz) -> hist_inv si live) ->
  (ix_of name n = IxSz -> inverse_on (qn_ind si) (ind_qn si) (si_nmany si) /\ qn_meaning si) ->
  good n name si.
Proof.
  intros n name si live H1 H2 H3 OK HI HQ.
  assert (HL := ok_cl_len _ _ OK).
  constructor; auto; try lia.
  - intros c Hc. apply nth_overflow. lia.
  - exists live. rewrite trim_full by lia. split; auto. split; auto.
    rewrite (ok_nmany _ _ OK).
    assert (length (si_i si) <= length (seq 0 (2 ^ n))); [|now rewrite seq_length in *].
    apply NoDup_incl_length; [apply (ok_i_nodup _ _ OK)|].
    intros x Hx. apply (ok_i_in _ _ OK) in Hx. rewrite H1 in Hx. apply in_seq. lia.
Qed.

Lemma init_nc : forall n name, si_ncharge (si_init n name) = n + 1.
Proof. intros. unfold si_init. destruct (ix_of name n); reflexivity. Qed.
Lemma init_nmany : forall n name, si_nmany (si_init n name) = 2 ^ n.
Proof. intros. unfold si_init. destruct (ix_of name n); reflexivity. Qed.

Lemma good_init : forall n name, 1 <= n -> good n name (si_init n name).
Proof.
  intros n name Hn. apply good_fresh with (live := all_live).
  - apply init_n.
  - apply init_ix.
  - apply init_nc.
  - apply si_init_ok.
  - intros H. apply init_hist; auto.
  - intros _. rewrite init_nmany. apply qn_init. auto.
Qed.

(** appending empty lists to chargelst *)
Lemma good_append : forall n name si, good n name si -> good n name (with_chargelst si (si_chargelst si ++ [[]])).
Proof.
  intros n name si G. destruct G as [G1 G2 G3 G4 G5 G6 G7].
  constructor; simpl; auto.
  - rewrite app_length. lia.
  - intros c Hc. destruct (Nat.lt_ge_cases c (length (si_chargelst si))).
    + rewrite app_nth1 by auto. auto.
    + rewrite app_nth2 by auto. destruct (c - length (si_chargelst si)) as [|[|]]; reflexivity.
  - destruct G6 as (live & A & B & C). exists live.
    assert (E : trim (with_chargelst si (si_chargelst si ++ [[]])) = trim si).
    { unfold trim. simpl. rewrite with_with. f_equal. rewrite firstn_app.
      replace (si_nsingle si + 1 - length (si_chargelst si)) with 0 by lia.
      simpl. now rewrite app_nil_r. }
    rewrite E. auto.
  - intros Hsz. specialize (G7 Hsz).
    assert (EQ : qn_pairs (with_chargelst si (si_chargelst si ++ [[]])) = qn_pairs si).
    { unfold qn_pairs. simpl. rewrite G2, Hsz. reflexivity. }
    unfold inverse_on, qn_meaning, qn_ind, ind_qn, make_quantum_numbers in *. rewrite EQ.
    exact G7.
Qed.

Lemma remove_trim : forall n name si lin, (ix_of name n = IxCharge \/ ix_of name n = IxSz) ->
  si_indexing si = ix_of name n -> remove_fock_states (trim si) lin = remove_fock_states si lin.
Proof.
  intros n name si lin H E. unfold remove_fock_states. simpl. rewrite E.
  destruct H as [H|H]; rewrite H; reflexivity.
Qed.

Lemma good_remove : forall n name si lin si', good n name si ->
  (ix_of name n = IxCharge \/ ix_of name n = IxSz) -> (forall k, In k lin -> k < 2 ^ n) ->
  remove_fock_states si lin = Some si' -> good n name si'.
Proof.
  intros n name si lin si' G Hix Hlin E.
  destruct (g_live _ _ _ G) as (live & _ & _ & HI). specialize (HI Hix).
  rewrite <- (remove_trim n name) in E by (auto; apply (g_ix _ _ _ G)).
  destruct (step_hist (trim si) live lin HI) as (si2 & E2 & H1 & H2 & H3).
  { simpl. rewrite (g_n _ _ _ G). auto. }
  assert (si2 = si') by congruence. subst si2.
  simpl in H2, H3. rewrite (g_n _ _ _ G) in H2. rewrite (g_ix _ _ _ G) in H3.
  apply good_fresh with (live := minus live lin); auto.
  - rewrite (hi_ncharge _ _ H1), H2. auto.
  - apply (hi_ok _ _ H1).
  - intros Hs. rewrite (ok_nmany _ _ (hi_ok _ _ H1)).
    pose proof (hi_ix _ _ H1) as HX. rewrite H3, Hs in HX.
    apply (qn_sz si' _ (hi_ok _ _ H1)); try tauto.
    + apply (hi_ncharge _ _ H1).
    + rewrite H3. auto.
Qed.

(** selections are well formed *)
Lemma concat_nodup_key : forall (key : nat -> nat) (L : list (list nat)) c0,
  (forall c, NoDup (nth c L [])) -> (forall c x, In x (nth c L []) -> key x = c0 + c) -> NoDup (concat L).
Proof.
  intros key. induction L as [|l L IH]; intros c0 ND HK; simpl; [constructor|].
  apply NoDup_app_intro.
  - apply (ND 0).
  - apply (IH (S c0)).
    + intros c. apply (ND (S c)).
    + intros c x Hx. rewrite (HK (S c) x Hx). lia.
  - intros x H1 H2. pose proof (HK 0 x H1) as K1. apply in_concat in H2.
    destruct H2 as (l' & Hl' & Hx). apply In_nth with (d := []) in Hl'. destruct Hl' as (c & Hc & E).
    subst l'. pose proof (HK (S c) x Hx). lia.
Qed.

Definition key_of (si : SI) (k : nat) : nat :=
  match get_state si k with Some s => electrons s | None => 0 end.

Lemma nth_app_nil : forall (l : list (list nat)) c, nth c (l ++ [[]]) [] = nth c l [].
Proof.
  intros. destruct (Nat.lt_ge_cases c (length l)).
  - now rewrite app_nth1.
  - rewrite app_nth2, (nth_overflow l) by auto. destruct (c - length l) as [|[|]]; reflexivity.
Qed.

Lemma selection_ok : forall n name si lst, good n name si -> selection si lst ->
  states_ok (n + 1) (2 ^ n) (lst ++ [[]]).
Proof.
  intros n name si lst G (S1 & S2 & S3). rewrite (g_n _ _ _ G) in S1, S2.
  assert (HB : forall k s, get_state si k = Some s -> k < 2 ^ n).
  { intros k s Hk. destruct (g_live _ _ _ G) as (live & OK & HM & _). unfold get_state in Hk.
    destruct (nth_error (si_i si) k) eqn:E; [|discriminate].
    pose proof (ok_nmany _ _ OK) as HN. simpl in HN.
    assert (k < length (si_i si)) by (apply nth_error_Some; congruence). lia. }
  constructor.
  - rewrite app_length. simpl. lia.
  - rewrite firstn_app. replace (n + 1 - length lst) with 0 by lia. simpl. rewrite app_nil_r.
    apply concat_nodup_key with (key := key_of si) (c0 := 0).
    + intros c. destruct (Nat.lt_ge_cases c (n + 1)).
      * rewrite nth_firstn by auto. apply S3.
      * rewrite nth_overflow by (rewrite firstn_length; lia). constructor.
    + intros c x Hx. destruct (Nat.lt_ge_cases c (n + 1)).
      * rewrite nth_firstn in Hx by auto. destruct (S3 c) as [_ S3']. destruct (S3' x Hx) as (s & E1 & E2).
        unfold key_of. rewrite E1. auto.
      * rewrite nth_overflow in Hx by (rewrite firstn_length; lia). destruct Hx.
  - intros x Hx. apply in_concat in Hx. destruct Hx as (l & Hl & Hx).
    apply In_nth with (d := []) in Hl. destruct Hl as (c & Hc & E). subst l.
    rewrite firstn_length in Hc. rewrite nth_firstn in Hx by lia. rewrite nth_app_nil in Hx.
    destruct (S3 c) as [_ S3']. destruct (S3' x Hx) as (s & E1 & E2). eapply HB; eauto.
  - intros c Hc. rewrite nth_app_nil. apply S2. lia.
Qed.

Lemma chargelst_selection : forall n name si, good n name si -> selection si (si_chargelst si).
Proof.
  intros n name si G. unfold selection. rewrite (g_n _ _ _ G).
  split; [apply (g_len _ _ _ G)|]. split; [apply (g_ext _ _ _ G)|].
  intros c. destruct (Nat.lt_ge_cases n c) as [Hc|Hc].
  { rewrite (g_ext _ _ _ G) by auto. split; [constructor|]. intros k []. }
  destruct (g_live _ _ _ G) as (live & OK & _ & _).
  assert (E : nth c (si_chargelst (trim si)) [] = nth c (si_chargelst si) []).
  { simpl. rewrite (g_n _ _ _ G). apply nth_firstn. lia. }
  rewrite <- E. split; [apply (ok_cl_nodup _ _ OK)|].
  intros k Hk. apply (ok_charge_block _ _ c k OK) in Hk; [|simpl; rewrite (g_n _ _ _ G); lia].
  destruct Hk as (s & E1 & E2). exists s. rewrite electrons_charge. auto.
Qed.

(** what holds of every reachable object *)
Record reached (kd : kind) (n : nat) (name : string) (si : SI) (dm : DMI) : Prop := {
  rc_good : good n name si;
  rc_make : exists qn qi dict0 lst,
    dm = set_statesdm' kd (ix_of name n) qn qi (n + 1) dict0 (lst ++ [[]]) /\
    length dict0 = 2 ^ n /\ selection si lst /\ states_ok (n + 1) (2 ^ n) (lst ++ [[]]) /\
    (ix_of name n = IxSz -> forall k, qn k = ind_qn si k)
}.

Lemma reached_dict : forall kd n name si dm, reached kd n name si dm -> length (dm_dictdm dm) = 2 ^ n.
Proof.
  intros kd n name si dm R. destruct (rc_make _ _ _ _ _ R) as (qn & qi & d0 & lst & -> & L & _).
  destruct (dm_fields kd (ix_of name n) qn qi (n + 1) d0 (lst ++ [[]])) as (_ & _ & _ & _ & _ & _ & _ & _ & _ & E & _).
  rewrite E, dict_loop_length. auto.
Qed.

Lemma ind_qn_with : forall si cl, si_indexing si = IxSz -> ind_qn (with_chargelst si cl) = ind_qn si.
Proof.
  intros si cl E. unfold ind_qn, make_quantum_numbers, qn_pairs. simpl. rewrite E. reflexivity.
Qed.

Lemma reached_use_all : forall kd n name si d0 si' dm', good n name si -> length d0 = 2 ^ n ->
  call_use_all kd d0 si = (si', dm') -> reached kd n name si' dm'.
Proof.
  intros kd n name si d0 si' dm' G L E. unfold call_use_all, set_statesdm in E. injection E as <- <-.
  assert (S := chargelst_selection _ _ _ G).
  constructor.
  - destruct kd; [apply good_append| |apply good_append]; auto. now rewrite with_same.
  - exists (ind_qn si), (qn_ind si), d0, (si_chargelst si).
    rewrite (g_ix _ _ _ G), (g_nc _ _ _ G).
    split; [reflexivity|]. split; [auto|]. split; [exact S|]. split; [eapply selection_ok; eauto|].
    intros Hs k. rewrite ind_qn_with; auto. rewrite (g_ix _ _ _ G). auto.
Qed.

Theorem reach_reached : forall kd n name si dm, 1 <= n -> reach kd n name si dm -> reached kd n name si dm.
Proof.
  intros kd n name si dm Hn R. induction R as [si dm E|si dm si' dm' R IH E|si dm lst si' dm' R IH S E|si dm lin si' dm' R IH Hix Hlin E].
  - eapply reached_use_all; [apply (good_init n name); auto| |exact E].
    now rewrite repeat_length, init_nmany.
  - eapply reached_use_all; [apply (rc_good _ _ _ _ _ IH)| |exact E]. eapply reached_dict; eauto.
  - unfold call_set in E. injection E as <- <-.
    assert (G := rc_good _ _ _ _ _ IH). constructor; auto.
    exists (ind_qn si), (qn_ind si), (dm_dictdm dm), lst. rewrite (g_ix _ _ _ G), (g_nc _ _ _ G).
    split; [reflexivity|]. split; [eapply reached_dict; eauto|]. split; [auto|].
    split; [eapply selection_ok; eauto|]. auto.
  - unfold call_remove in E. destruct (remove_fock_states si lin) as [si2|] eqn:E2; [|discriminate].
    change (Some (call_use_all kd (dm_dictdm dm) si2) = Some (si', dm')) in E.
    assert (E3 : call_use_all kd (dm_dictdm dm) si2 = (si', dm')) by congruence.
    eapply reached_use_all; [|eapply reached_dict; eauto|exact E3].
    eapply good_remove; eauto. apply (rc_good _ _ _ _ _ IH).
Qed.
