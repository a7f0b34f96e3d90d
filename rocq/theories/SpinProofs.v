(** Dictionaries that are the same for both spins, and the operators they stand for.  Generic part of C43. *)
From Coq Require Import String List Arith Lia Bool ZArith Permutation.
From Verif Require Import Base CRing Operators Fock Params ParamsProofs SpinSwap.
Import ListNotations.
Open Scope nat_scope.
Local Notation length := List.length.

Lemma nodup_map : forall A B (f : A -> B) l, (forall a b, In a l -> In b l -> f a = f b -> a = b) -> NoDup l -> NoDup (map f l).
Proof.
  intros A B f. induction l as [|x l IH]; intros H ND; cbn [map]; constructor; inversion ND as [|y ys N1 N2]; subst.
  - rewrite in_map_iff. intros (y & E & Hy). apply N1. rewrite <- (H y x); auto; [now right|now left].
  - apply IH; auto. intros a b Ha Hb. apply H; now right.
Qed.

Section Sym.
Variable K : CRing.
Notation C := (Cx K).
Add Ring Cspin : (rth C).
Local Open Scope rng_scope.
Variable isz : C -> bool.
Hypothesis isz_spec : forall x, isz x = true <-> x = 0.
Context {Key : Type}.
Variable keq : forall a b : Key, {a = b} + {a <> b}.
(** [tau k]: the key for the other spins; keys in [van] are not used; those in [rel] have real values *)
Variables (tau : Key -> Key) (rng van rel : Key -> Prop).
Local Notation dget := (@dget Key C keq).
Local Notation val := (val K keq).
Definition self_sym (d : dict Key C) : Prop := NoDup (map fst d) /\ (forall k, In k (map fst d) -> rng k) /\
  (forall k, rng k -> val d (tau k) = val d k) /\ (forall k, van k -> val d k = 0) /\ (forall k, rel k -> conj (val d k) = val d k).
Definition new_sym (d : dict Key C) : Prop := NoDup (map fst d) /\ (forall k, In k (map fst d) -> rng k) /\
  (forall k, rng k -> dget d (tau k) = dget d k) /\ (forall k, van k -> dget d k = None) /\ (forall k v, rel k -> dget d k = Some v -> conj v = v).
Lemma new_self : forall d, new_sym d -> self_sym d.
Proof.
  intros d (H1 & H2 & H3 & H4 & H5). split; [exact H1|]. split; [exact H2|]. unfold ParamsProofs.val. split; [intros k Hk; now rewrite H3|].
  split; [intros k Hk; now rewrite H4|]. intros k Hk. destruct (dget d k) as [v|] eqn:E; [|apply conj_0]. eapply H5; eauto.
Qed.
Lemma new_nil : new_sym [].
Proof. split; [constructor|]. split; [intros k []|]. split; [reflexivity|]. split; [reflexivity|]. intros k v _ E. discriminate E. Qed.
Lemma add_sym : forall self new, self_sym self -> new_sym new -> self_sym (dadd K keq self new).
Proof.
  intros self new (S1 & S2 & S3 & S4 & S5) N. pose proof (new_self _ N) as (_ & _ & N3 & N4 & N5). destruct N as (N1 & N2 & _).
  split; [now apply dadd_nodup|]. split; [intros k Hk; apply dadd_keys in Hk; destruct Hk; auto|].
  split; [|split]; intros k Hk; rewrite !dadd_val by auto.
  - rewrite S3, N3; auto.
  - rewrite S4, N4 by auto. ring.
  - rewrite conj_add, S5, N5; auto.
Qed.
Lemma change_sym : forall self new, self_sym self -> new_sym new -> self_sym (fst (dchange K isz keq true self new)).
Proof.
  intros self new (S1 & S2 & S3 & S4 & S5) (N1 & N2 & N3 & N4 & N5).
  split; [now apply dchange_nodup|]. split; [intros k Hk; apply dchange_keys in Hk; destruct Hk; auto|].
  split; [|split]; intros k Hk; rewrite !dchange_val by auto.
  - rewrite N3 by auto. destruct (dget new k); auto.
  - rewrite N4 by auto. auto.
  - destruct (dget new k) as [v|] eqn:E; [eapply N5; eauto|auto].
Qed.

(** the sum over the items is a sum over all keys in range *)
Lemma total_range : forall (D : Key -> C -> C), (forall k, D k 0 = 0) -> forall KS (d : dict Key C), NoDup KS -> NoDup (map fst d) ->
  (forall k, In k (map fst d) -> In k KS) -> rsum (fun e => D (fst e) (snd e)) d = rsum (fun k => D k (val d k)) KS.
Proof.
  intros D D0 KS d NK. induction d as [|[k0 v] d IH]; intros ND HK.
  - cbn [rsum]. symmetry. apply rsum_0. intros k _. apply D0.
  - cbn [map fst] in ND, HK. inversion ND as [|x xs N1 N2]; subst. cbn [rsum fst snd]. rewrite IH; auto; [|intros k Hk; apply HK; now right].
    assert (Q : D k0 v = rsum (fun k => if keq k k0 then D k v else 0) KS).
    { rewrite (rsum_single _ _ _ KS k0 NK); [destruct (keq k0 k0); congruence|apply HK; now left|].
      intros y _ Hy. destruct (keq y k0); congruence. }
    rewrite Q, <- rsum_plus. apply rsum_ext. intros k _. unfold ParamsProofs.val. cbn [Params.dget].
    destruct (keq k k0) as [->|]; [|ring]. replace (dget d k0) with (@None C) by (symmetry; now apply dget_none). rewrite D0. ring.
Qed.

Variables (nss : nat) (F : Key * C -> op C) (KS : list Key).
Hypothesis F0 : forall k f s, F (k, 0) f s = 0.
Hypothesis KS_nodup : NoDup KS.
Hypothesis KS_rng : forall k, In k KS <-> rng k.
Hypothesis tau_rng : forall k, rng k -> rng (tau k).
Hypothesis tau_tau : forall k, rng k -> tau (tau k) = k.
Hypothesis F_turns : forall k v, rng k -> (van k -> v = 0) -> (rel k -> conj v = v) -> turns C nss (F (k, v)) (F (tau k, v)).

Lemma osum_at : forall A (G : A -> op C) l f s, osum C G l f s = rsum (fun x => G x f s) l.
Proof. intros A G l f s. induction l as [|x l IH]; cbn [osum rsum]; [reflexivity|]. unfold oplus. now rewrite IH. Qed.
Lemma tau_perm : Permutation (map tau KS) KS.
Proof.
  assert (ND : NoDup (map tau KS)).
  { apply nodup_map; auto. intros a b Ha Hb E. apply KS_rng in Ha, Hb. rewrite <- (tau_tau a Ha), <- (tau_tau b Hb). congruence. }
  apply NoDup_Permutation; auto. intros k. rewrite in_map_iff. split.
  - intros (x & <- & Hx). apply KS_rng. apply tau_rng. now apply KS_rng.
  - intros Hk. apply KS_rng in Hk. exists (tau k). split; [now apply tau_tau|]. apply KS_rng. now apply tau_rng.
Qed.
Lemma sum_turns : forall d, self_sym d -> turns C nss (osum C F d) (osum C F d).
Proof.
  intros d (S1 & S2 & S3 & S4 & S5).
  assert (E : forall f s, osum C F d f s = osum C (fun k => F (k, val d k)) KS f s).
  { intros f s. rewrite !osum_at. rewrite <- (total_range (fun k v => F (k, v) f s) (fun k => F0 k f s) KS d KS_nodup S1).
    - apply rsum_ext. intros [k v] _. reflexivity.
    - intros k Hk. apply KS_rng. auto. }
  assert (T : turns C nss (osum C (fun k => F (k, val d k)) KS) (osum C (fun k => F (tau k, val d k)) KS)).
  { apply turns_sum. intros k Hk. apply KS_rng in Hk. apply F_turns; auto. }
  intros f s Hs. rewrite E. rewrite osum_at. rewrite <- (rsum_perm _ _ _ _ _ tau_perm). rewrite rsum_map.
  transitivity (osum C (fun k => F (tau k, val d k)) KS (xch C nss f) s).
  - rewrite <- (T f s Hs). unfold xch. now rewrite E.
  - rewrite osum_at. apply rsum_ext. intros k Hk. apply KS_rng in Hk. now rewrite S3.
Qed.
End Sym.
