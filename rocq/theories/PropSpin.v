(** C43: with symmetry='spin' every parameter is stored for both spins and the Hamiltonian commutes with exchanging them. *)
From Coq Require Import String List Arith Lia Bool ZArith Permutation.
From Verif Require Import Base Bits Indexing CRing Operators Fock OperatorsProofs PropOperators Params ParamsProofs PropParams PropLeads SpinSwap SpinProofs.
Import ListNotations.
Open Scope nat_scope.
Local Notation length := List.length.
Local Notation key4 := (nat * nat * nat * nat)%type.

Section Spin.
Variable K : CRing.
Notation C := (Cx K).
Add Ring Cspin2 : (rth C).
Local Open Scope rng_scope.
Variable isz : C -> bool.
Hypothesis isz_spec : forall x, isz x = true <-> x = 0.
Variable nss : nat.

(** *** hsingle, tleads, velph *)
(** The stored dictionary has the given element for both spins, with the same value, and nothing else. *)
Theorem C43_hsingle : forall herm_hs az x i j, wf_input K x -> orbitals K (hs_orb nss) (named_hs K isz herm_hs az x) ->
  dget eq2 (make_hsingle_dict K isz herm_hs true nss az x) (i, j) =
  if (Nat.ltb i nss && Nat.ltb j nss)%bool then named_hs K isz herm_hs az x (i, j)
  else if (Nat.leb nss i && Nat.leb nss j)%bool then named_hs K isz herm_hs az x (i - nss, j - nss)%nat else None.
Proof. intros herm_hs az x i j W O. rewrite hs_dict_get by auto. reflexivity. Qed.
Theorem C43_tleads : forall nls az x l i, wf_input K x -> only K (fun k => fst k < nls /\ snd k < nss)%nat (named K isz eq2 tl_inside az x) ->
  dget eq2 (make_tleads_dict K isz true nls nss az x) (l, i) =
  if (Nat.ltb l nls && Nat.ltb i nss)%bool then named K isz eq2 tl_inside az x (l, i)
  else if (Nat.leb nls l && Nat.leb nss i)%bool then named K isz eq2 tl_inside az x (l - nls, i - nss)%nat else None.
Proof. intros nls az x l i W O. rewrite tl_dict_get by auto. reflexivity. Qed.
Theorem C43_velph : forall az x b i j, wf_input K x -> only K (fun k => snd (fst k) < nss /\ snd k < nss)%nat (named K isz eq3 ve_inside az x) ->
  dget eq3 (make_velph_dict K isz true nss az x) (b, i, j) =
  if (Nat.ltb i nss && Nat.ltb j nss)%bool then named K isz eq3 ve_inside az x (b, i, j)
  else if (Nat.leb nss i && Nat.leb nss j)%bool then named K isz eq3 ve_inside az x (b, i - nss, j - nss)%nat else None.
Proof. intros az x b i j W O. rewrite ve_dict_get by auto. reflexivity. Qed.

(** *** coulomb *)
(** U d_m^+ d_n^+ d_k d_l with m, l of one spin and n, k of one spin.  The same operator has the key (n, m, l, k); its
    Hermitian conjugate has (l, k, n, m). *)
Definition same4 (q : key4) : key4 := let '(m, n, k, l) := q in (n, m, l, k).
Definition conj4 (q : key4) : key4 := let '(m, n, k, l) := q in (l, k, n, m).
Definition in_orb (q : key4) : Prop := let '(m, n, k, l) := q in (m < nss /\ n < nss /\ k < nss /\ l < nss)%nat.
(** no operator is given twice, as itself or as a Hermitian conjugate *)
Definition no_twins (ks : list key4) : Prop := forall q, In q ks ->
  (same4 q <> q -> ~ In (same4 q) ks) /\ (conj4 q <> q -> ~ In (conj4 q) ks) /\ (same4 (conj4 q) <> q -> ~ In (same4 (conj4 q)) ks).
(** the last element given under one of the keys *)
Definition last_with (qs : list key4) (d : list (key4 * C)) : option C :=
  option_map snd (find (fun e => if in_dec eq4 (fst e) qs then true else false) (rev d)).
(** The four spin combinations.  All up: the given element.  All down: the given element for the other spins.  One pair up
    and one pair down: the pair written first has spin up with m_less_n, otherwise both orders are stored.  With herm_c an
    exchange element (m, n, m, n) is its own conjugate after exchanging the spins and is stored once. *)
Definition spin_val (herm_c m_less_n : bool) (d : list (key4 * C)) (q : key4) : option C :=
  let '(a, b, c, e) := q in
  match Nat.ltb a nss, Nat.ltb b nss, Nat.ltb c nss, Nat.ltb e nss with
  | true, true, true, true => last_with [(a, b, c, e)] d
  | false, false, false, false => last_with [(a - nss, b - nss, c - nss, e - nss)%nat] d
  | true, false, false, true =>
      if m_less_n then
        if (herm_c && Nat.eqb a (c - nss) && Nat.eqb (b - nss) e)%bool then last_with [(a, b - nss, c - nss, e)%nat] d
        else last_with [(a, b - nss, c - nss, e); (b - nss, a, e, c - nss)]%nat d
      else last_with [(a, b - nss, c - nss, e)%nat] d
  | false, true, true, false => if m_less_n then None else last_with [(a - nss, b, c, e - nss)%nat] d
  | _, _, _, _ => None
  end.

(** the entries written for one given element *)
Definition exchange (q : key4) : bool := let '(m, n, k, l) := q in (Nat.eqb m k && Nat.eqb n l)%bool.
Definition writes (herm_c m_less_n : bool) (e : key4 * C) : list (key4 * C) :=
  let '((m, n, k, l), U) := e in
  [((m, n + nss, k + nss, l)%nat, U)] ++
  (if m_less_n then (if herm_c && exchange (m, n, k, l) then [] else [((n, m + nss, l + nss, k)%nat, U)]) else [((m + nss, n, k, l + nss)%nat, U)]) ++
  [((m + nss, n + nss, k + nss, l + nss)%nat, U)].

Lemma dupdate_app : forall (a b d : list (key4 * C)), dupdate eq4 d (a ++ b) = dupdate eq4 (dupdate eq4 d a) b.
Proof. intros. unfold dupdate. apply fold_left_app. Qed.
Lemma dupdate_none : forall (d l : list (key4 * C)) q, ~ In q (map fst d) -> ~ In q (map fst l) -> dget eq4 (dupdate eq4 d l) q = None.
Proof.
  intros d l q H1 H2. rewrite dupdate_get. replace (last_of eq4 l q) with (@None C).
  - now apply dget_none.
  - symmetry. apply dget_none. rewrite map_rev, <- in_rev. auto.
Qed.

Lemma coulomb_writes : forall herm_c m_less_n d, (forall q, In q (map fst d) -> in_orb q) ->
  (herm_c = true -> m_less_n = true /\ NoDup (map fst d) /\ no_twins (map fst d)) ->
  coulomb_spin K herm_c m_less_n nss d = dupdate eq4 d (flat_map (writes herm_c m_less_n) d).
Proof.
  intros hc ml d HO HC. unfold coulomb_spin.
  assert (G : forall l p s, d = p ++ l -> s = dupdate eq4 d (flat_map (writes hc ml) p) ->
    fold_left (fun s e => let '((m, n, k, l), U) := e in
     let s := if (negb hc || negb (has s (l, k + nss, n + nss, m)))%nat%bool then dset eq4 s (m, n + nss, k + nss, l)%nat U else s in
     let s := if ml then
                (if (negb hc || negb (has s (k, l + nss, m + nss, n)))%nat%bool then dset eq4 s (n, m + nss, l + nss, k)%nat U else s)
              else dset eq4 s (m + nss, n, k, l + nss)%nat U in
     dset eq4 s (m + nss, n + nss, k + nss, l + nss)%nat U) l s = dupdate eq4 s (flat_map (writes hc ml) l)).
  2: { exact (G d [] d eq_refl eq_refl). }
  induction l as [|[[[[m n] k] l'] U] l IH]; intros p s Ed Es; [reflexivity|].
  cbn [fold_left flat_map]. rewrite dupdate_app.
  match goal with |- fold_left ?st l ?a = dupdate eq4 ?b _ => replace a with b end.
  { rewrite (IH (p ++ [((m, n, k, l'), U)])); auto; [now rewrite <- app_assoc|].
    rewrite flat_map_app, dupdate_app, <- Es. cbn [flat_map]. now rewrite app_nil_r. }
  destruct hc.
  2: { cbn [negb orb andb writes]. destruct ml; reflexivity. }
  destruct (HC eq_refl) as (-> & ND & TW). cbn [negb orb]. clear IH.
  assert (Hq : In (m, n, k, l') (map fst d)) by (rewrite Ed, map_app; apply in_or_app; right; now left).
  assert (Oq := HO _ Hq). cbn in Oq.
  assert (FP : forall q, In q (map fst p) -> in_orb q) by (intros q H; apply HO; rewrite Ed, map_app; apply in_or_app; now left).
  assert (NP : forall q, In q (map fst p) -> q <> (m, n, k, l')).
  { intros q H ->. rewrite Ed, map_app in ND. cbn [map fst] in ND. apply NoDup_remove_2 in ND. apply ND. apply in_or_app. now left. }
  (* a mixed key is only present if one of its two sources is in p *)
  assert (MIX : forall a b c e, (a < nss)%nat -> (b < nss)%nat -> (c < nss)%nat -> (e < nss)%nat ->
     ~ In (a, b, c, e) (map fst p) -> ~ In (b, a, e, c) (map fst p) -> dget eq4 s (a, b + nss, c + nss, e)%nat = None).
  { intros a b c e Ha Hb Hc He N1 N2. rewrite Es. apply dupdate_none.
    - intros H. apply HO in H. cbn in H. lia.
    - intros H. apply in_map_iff in H. destruct H as ([q v] & Eq & H). apply in_flat_map in H. destruct H as ([[[[m1 n1] k1] l1] U1] & H1 & H2).
      assert (I1 : In (m1, n1, k1, l1) (map fst p)) by (apply in_map_iff; exists ((m1, n1, k1, l1), U1); auto).
      assert (O1 := FP _ I1). cbn in O1. cbn [fst] in Eq. subst q. cbn [writes] in H2. rewrite !in_app_iff in H2.
      destruct H2 as [[E|[]]|[H2|[E|[]]]].
      + injection E as -> E2 E3 -> _. apply N1. replace b with n1 by lia. replace c with k1 by lia. exact I1.
      + destruct (andb true (exchange (m1, n1, k1, l1))); [destruct H2|]. destruct H2 as [E|[]]. injection E as -> E2 E3 -> _.
        apply N2. replace b with m1 by lia. replace c with l1 by lia. exact I1.
      + injection E as E1 E2 E3 E4 _. lia. }
  destruct (TW _ Hq) as (T1 & T2 & T3). cbn [same4 conj4] in T1, T2, T3.
  assert (INP : forall q q0, (q0 <> (m, n, k, l') -> ~ In q0 (map fst d)) -> q = q0 -> ~ In q (map fst p)).
  { intros q q0 T -> H. destruct (eq4 q0 (m, n, k, l')) as [->|Hne]; [now apply (NP _ H)|].
    apply (T Hne). rewrite Ed, map_app. apply in_or_app. now left. }
  assert (A1 : dget eq4 s (l', k + nss, n + nss, m)%nat = None).
  { apply MIX; try lia; eapply INP; [exact T2|reflexivity|exact T3|reflexivity]. }
  unfold has. rewrite A1. cbn [negb].
  assert (A2 : dget eq4 (dset eq4 s (m, (n + nss)%nat, (k + nss)%nat, l') U) (k, (l' + nss)%nat, (m + nss)%nat, n) =
               if exchange (m, n, k, l') then Some U else None).
  { rewrite dget_set. destruct (eq4 _ _) as [E|NE].
    - injection E as E1 E2 E3 E4. replace (exchange (m, n, k, l')) with true; auto. cbn. symmetry. apply Bool.andb_true_iff. split; apply Nat.eqb_eq; lia.
    - replace (exchange (m, n, k, l')) with false.
      + apply MIX; try lia; eapply INP; [exact T3|reflexivity|exact T2|reflexivity].
      + symmetry. apply Bool.not_true_is_false. intros X. cbn [exchange] in X. apply Bool.andb_true_iff in X. destruct X as (X1 & X2). apply Nat.eqb_eq in X1, X2. subst.
        apply NE. reflexivity. }
  rewrite A2. cbn [writes andb]. destruct (exchange (m, n, k, l')); reflexivity.
Qed.

Lemma rev_flat_map : forall A B (w : A -> list B) l, rev (flat_map w l) = flat_map (fun x => rev (w x)) (rev l).
Proof.
  intros A B w. induction l as [|x l IH]; auto. cbn [flat_map rev]. rewrite rev_app_distr, IH, flat_map_app. cbn [flat_map]. now rewrite app_nil_r.
Qed.
Lemma dget_same : forall (g : list (key4 * C)) U q, (forall e, In e g -> snd e = U) -> dget eq4 g q = if in_dec eq4 q (map fst g) then Some U else None.
Proof.
  intros g U q H. destruct (dget eq4 g q) as [v|] eqn:E.
  - apply dget_in in E. destruct (in_dec eq4 q (map fst g)) as [|N]; [now rewrite <- (H _ E)|]. exfalso. apply N. apply in_map_iff. exists (q, v). auto.
  - apply dget_none in E. now destruct (in_dec eq4 q (map fst g)).
Qed.
Lemma last_writes : forall (w : key4 * C -> list (key4 * C)) d q, (forall e e', In e' (w e) -> snd e' = snd e) ->
  last_of eq4 (flat_map w d) q = option_map snd (find (fun e => if in_dec eq4 q (map fst (w e)) then true else false) (rev d)).
Proof.
  intros w d q H. unfold last_of. rewrite rev_flat_map. induction (rev d) as [|e l IH]; auto. cbn [flat_map find]. rewrite dget_app.
  rewrite (dget_same (rev (w e)) (snd e)) by (intros e' He; apply H; now apply in_rev).
  destruct (in_dec eq4 q (map fst (rev (w e)))) as [I1|I1], (in_dec eq4 q (map fst (w e))) as [I2|I2]; auto.
  - exfalso. apply I2. rewrite map_rev in I1. now apply in_rev.
  - exfalso. apply I1. rewrite map_rev. now apply -> in_rev.
Qed.
Lemma writes_val : forall hc ml e e', In e' (writes hc ml e) -> snd e' = snd e.
Proof.
  intros hc ml [[[[m n] k] l] U] e' H. cbn [writes snd] in *. rewrite !in_app_iff in H.
  destruct H as [[<-|[]]|[H|[<-|[]]]]; auto. destruct ml; [destruct (hc && exchange (m, n, k, l))%bool; [destruct H|]|]; destruct H as [<-|[]]; auto.
Qed.
Lemma find_ext_in : forall A (p r : A -> bool) l, (forall x, In x l -> p x = r x) -> find p l = find r l.
Proof. intros A p r. induction l as [|x l IH]; intros H; auto. cbn. rewrite H by now left. destruct (r x); auto. apply IH. intros y Hy. apply H. now right. Qed.

Theorem C43_coulomb : forall herm_c m_less_n d q, NoDup (map fst d) -> (forall q, In q (map fst d) -> in_orb q) ->
  (herm_c = true -> m_less_n = true /\ no_twins (map fst d)) ->
  dget eq4 (coulomb_spin K herm_c m_less_n nss d) q = spin_val herm_c m_less_n d q.
Proof.
  intros hc ml d q ND HO HC. rewrite coulomb_writes by (auto; intros X; destruct (HC X); auto). rewrite dupdate_get.
  rewrite last_writes by apply writes_val. destruct q as [[[a b] c] e].
  assert (FE : forall (p : key4 * C -> bool) qs,
     (forall m n k l U, In (m, n, k, l) (map fst d) -> in_orb (m, n, k, l) -> p ((m, n, k, l), U) = true <-> In (m, n, k, l) qs) ->
     option_map snd (find p (rev d)) = last_with qs d).
  { intros p qs H. unfold last_with. f_equal. apply find_ext_in. intros [[[[m n] k] l] U] Hx. apply in_rev in Hx.
    assert (I1 : In (m, n, k, l) (map fst d)) by (apply in_map_iff; exists ((m, n, k, l), U); auto).
    specialize (H m n k l U I1 (HO _ I1)). cbn [fst]. destruct (in_dec eq4 (m, n, k, l) qs) as [I2|I2].
    - now apply H.
    - destruct (p _); auto. exfalso. apply I2. now apply H. }
  assert (PW : forall m n k l U, (if in_dec eq4 (a, b, c, e) (map fst (writes hc ml ((m, n, k, l), U))) then true else false) = true <->
     (a, b, c, e) = (m, n + nss, k + nss, l)%nat \/ (a, b, c, e) = (m + nss, n + nss, k + nss, l + nss)%nat \/
     (ml = true /\ (hc && exchange (m, n, k, l))%bool = false /\ (a, b, c, e) = (n, m + nss, l + nss, k)%nat) \/
     (ml = false /\ (a, b, c, e) = (m + nss, n, k, l + nss)%nat)).
  { intros m n k l U. destruct (in_dec _ _ _) as [H|H].
    - split; auto. intros _. cbn [writes] in H. rewrite !map_app, !in_app_iff in H. destruct H as [[H|[]]|[H|[H|[]]]].
      + left. symmetry. exact H.
      + right. right. destruct ml; [|destruct H as [H|[]]; right; split; auto; symmetry; exact H].
        destruct (hc && exchange (m, n, k, l))%bool eqn:X; [destruct H|]. destruct H as [H|[]]. left. split; auto.
      + right. left. symmetry. exact H.
    - split; [discriminate|]. intros X. exfalso. apply H. cbn [writes]. rewrite !map_app, !in_app_iff.
      destruct X as [X|[X|[(-> & E & X)|(-> & X)]]]; rewrite X.
      + left. now left.
      + right. right. now left.
      + right. left. rewrite E. now left.
      + right. left. now left. }
  assert (NONE : forall (o : option C) (p : key4 * C -> bool), (forall m n k l U, in_orb (m, n, k, l) -> p ((m, n, k, l), U) = false) ->
     match option_map snd (find p (rev d)) with Some v => Some v | None => o end = o).
  { intros o p H. rewrite (find_ext_in _ p (fun _ => false)).
    - assert (Z : forall l : list (key4 * C), find (fun _ => false) l = None) by (induction l; auto). now rewrite Z.
    - intros [[[[m n] k] l] U] Hx. apply in_rev in Hx. apply H. apply HO. apply in_map_iff. exists ((m, n, k, l), U). auto. }
  assert (DN : ~ in_orb (a, b, c, e) -> dget eq4 d (a, b, c, e) = None) by (intros H; apply dget_none; intros X; apply H; auto).
  assert (PF : forall m n k l U, ~ ((a, b, c, e) = (m, n + nss, k + nss, l)%nat \/ (a, b, c, e) = (m + nss, n + nss, k + nss, l + nss)%nat \/
     (ml = true /\ (hc && exchange (m, n, k, l))%bool = false /\ (a, b, c, e) = (n, m + nss, l + nss, k)%nat) \/
     (ml = false /\ (a, b, c, e) = (m + nss, n, k, l + nss)%nat)) ->
     (if in_dec eq4 (a, b, c, e) (map fst (writes hc ml ((m, n, k, l), U))) then true else false) = false).
  { intros m n k l U H. apply Bool.not_true_is_false. intros X. apply H. now apply PW in X. }
  assert (OPT : forall o : option C, match o with Some v => Some v | None => None end = o) by now intros [v|].
  assert (INJ : forall x y z w x' y' z' w' : nat, (x, y, z, w) = (x', y', z', w') -> x = x' /\ y = y' /\ z = z' /\ w = w') by (intros; injection H; auto).
  cbn [spin_val]. destruct (Nat.ltb_spec a nss) as [Ha|Ha], (Nat.ltb_spec b nss) as [Hb|Hb], (Nat.ltb_spec c nss) as [Hc|Hc], (Nat.ltb_spec e nss) as [He|He].
  1: { (* all up *)
    rewrite NONE; [|intros m n k l U O1; apply PF; cbn in O1; intros [X|[X|[(_ & _ & X)|(_ & X)]]]; apply INJ in X; lia].
    rewrite <- (last_of_nodup eq4 d _ ND). unfold last_of, last_with. rewrite <- row_dget. unfold row_of. f_equal.
    apply find_ext_in. intros x _. destruct (eq4 (a, b, c, e) (fst x)) as [E|E], (in_dec eq4 (fst x) [(a, b, c, e)]) as [I|I]; auto.
    - exfalso. apply I. left. exact E.
    - destruct I as [I|[]]. exfalso. apply E. exact I. }
  all: rewrite DN by (cbn; lia).
  all: try (rewrite NONE by (intros m n k l U O1; apply PF; cbn in O1; intros [X|[X|[(_ & _ & X)|(_ & X)]]]; apply INJ in X; lia); reflexivity).
  - (* up, down, down, up *)
    rewrite OPT. destruct ml.
    + destruct (hc && Nat.eqb a (c - nss) && Nat.eqb (b - nss) e)%bool eqn:EX.
      * apply Bool.andb_true_iff in EX. destruct EX as (EX & E2). apply Bool.andb_true_iff in EX. destruct EX as (-> & E1).
        apply Nat.eqb_eq in E1, E2. apply FE. intros m n k l U _ O1. cbn in O1. rewrite PW. split.
        -- intros [X|[X|[(_ & X0 & X)|(X0 & _)]]]; try discriminate X0; apply INJ in X; try lia.
           ++ left. repeat f_equal; lia.
           ++ exfalso. cbn [andb exchange] in X0. apply Bool.andb_false_iff in X0. rewrite !Nat.eqb_neq in X0. lia.
        -- intros [X|[]]. apply INJ in X. left. repeat f_equal; lia.
      * apply FE. intros m n k l U _ O1. cbn in O1. rewrite PW. split.
        -- intros [X|[X|[(_ & X0 & X)|(X0 & _)]]]; try discriminate X0; apply INJ in X; try lia.
           ++ left. repeat f_equal; lia.
           ++ right. left. repeat f_equal; lia.
        -- intros [X|[X|[]]]; apply INJ in X; [left; repeat f_equal; lia|]. right. right. left. split; auto. split; [|repeat f_equal; lia].
           destruct hc; auto. cbn [andb exchange] in *. apply Bool.andb_false_iff in EX. rewrite !Nat.eqb_neq in EX. apply Bool.andb_false_iff. rewrite !Nat.eqb_neq. lia.
    + apply FE. intros m n k l U _ O1. cbn in O1. rewrite PW. split.
      * intros [X|[X|[(X0 & _)|(_ & X)]]]; try discriminate X0; apply INJ in X; try lia. left. repeat f_equal; lia.
      * intros [X|[]]. apply INJ in X. left. repeat f_equal; lia.
  - (* down, up, up, down *)
    destruct ml.
    + rewrite NONE; auto. intros m n k l U O1; apply PF; cbn in O1; intros [X|[X|[(_ & _ & X)|(X0 & X)]]]; try discriminate X0; apply INJ in X; lia.
    + rewrite OPT. apply FE. intros m n k l U _ O1. cbn in O1. rewrite PW. split.
      * intros [X|[X|[(X0 & _)|(_ & X)]]]; try discriminate X0; apply INJ in X; try lia. left. repeat f_equal; lia.
      * intros [X|[]]. apply INJ in X. right. right. right. split; auto. repeat f_equal; lia.
  - (* all down *)
    rewrite OPT. apply FE. intros m n k l U _ O1. cbn in O1. rewrite PW. split.
    + intros [X|[X|[(_ & _ & X)|(_ & X)]]]; apply INJ in X; try lia. left. repeat f_equal; lia.
    + intros [X|[]]. apply INJ in X. right. left. repeat f_equal; lia.
Qed.

(** *** exchanging the spins *)
Local Notation flip := (SpinSwap.flip nss).
Local Notation turns := (turns C nss).
Local Notation same_op := (same_op C nss).
Definition lev (i : nat) : Prop := (i < 2 * nss)%nat.
Lemma two_body_turns : forall U m n k l, lev m -> lev n -> lev k -> lev l ->
  turns (two_body K U m n k l) (two_body K U (flip m) (flip n) (flip k) (flip l)).
Proof.
  intros U m n k l Hm Hn Hk Hl. unfold two_body. apply turns_scale.
  apply turns_comp; [apply local_cre|now apply turns_cre|]. apply turns_comp; [apply local_cre|now apply turns_cre|].
  apply turns_comp; [apply local_ann|now apply turns_ann|now apply turns_ann].
Qed.
Lemma two_body_same : forall U m n k l, lev m -> lev n -> lev k -> lev l -> same_op (two_body K U m n k l) (two_body K U n m l k).
Proof.
  intros U m n k l Hm Hn Hk Hl f s Hs. unfold two_body, oscale. f_equal. unfold ocomp. unfold lev in *.
  set (g := ann C k (ann C l f)). set (g' := ann C l (ann C k f)).
  assert (G : forall t, length t = (2 * nss)%nat -> g t = (-(1)) * g' t).
  { intros t Ht. pose proof (CAR_ann C k l f t ltac:(lia) ltac:(lia)) as A. unfold oplus, ocomp in A. fold g g' in A.
    transitivity (g t + g' t - g' t); [ring|]. rewrite A. ring. }
  assert (H1 : cre C m (cre C n g) s = - (1) * cre C m (cre C n g') s).
  { rewrite <- cre_lin. apply cre_ext. intros t Ht. rewrite <- cre_lin. apply cre_ext. intros t' Ht'. apply G. congruence. }
  rewrite H1. pose proof (CAR_cre C m n g' s ltac:(lia) ltac:(lia)) as A. unfold oplus, ocomp in A.
  transitivity (- (cre C m (cre C n g') s + cre C n (cre C m g') s) + cre C n (cre C m g') s); [ring|]. rewrite A. ring.
Qed.
Lemma two_body_zero : forall m n k l f s, two_body K 0 m n k l f s = 0.
Proof. intros. unfold two_body, oscale. ring. Qed.
Lemma coul_zero : forall hc ml q f s, coul_op K hc ml (q, 0) f s = 0.
Proof.
  intros hc ml [[[m n] k] l] f s. unfold coul_op, oplus. destruct (wants_conj hc ml m n k l); rewrite ?conj_0, ?two_body_zero; unfold ozero; ring.
Qed.
Lemma hop_zero : forall hh q f s, hop_op K hh (q, 0) f s = 0.
Proof.
  intros hh [i j] f s. unfold hop_op, oplus, oscale. destruct (hh && negb (Nat.eqb i j))%bool; rewrite ?conj_0; unfold ozero; ring.
Qed.

(** *** hsingle *)
Definition rng2 (k : nat * nat) : Prop := lev (fst k) /\ lev (snd k).
Definition tau2 (k : nat * nat) : nat * nat := (flip (fst k), flip (snd k)).
Definition never {A} (k : A) : Prop := False.
Lemma flip_eqb : forall i j, lev i -> lev j -> Nat.eqb (flip i) (flip j) = Nat.eqb i j.
Proof.
  intros i j Hi Hj. destruct (Nat.eqb_spec i j) as [->|N]; [apply Nat.eqb_refl|]. apply Nat.eqb_neq. intros E. apply N.
  rewrite <- (flip_flip nss i Hi), <- (flip_flip nss j Hj). congruence.
Qed.
Lemma hop_turns : forall hh k v, rng2 k -> turns (hop_op K hh (k, v)) (hop_op K hh (tau2 k, v)).
Proof.
  intros hh [i j] v (Hi & Hj). cbn [fst snd] in Hi, Hj. unfold hop_op, tau2. cbn [fst snd]. rewrite flip_eqb by auto.
  apply turns_plus.
  - apply turns_scale. apply turns_comp; [apply local_cre|now apply turns_cre|now apply turns_ann].
  - destruct (hh && negb (Nat.eqb i j))%bool; [|apply turns_zero].
    apply turns_scale. apply turns_comp; [apply local_cre|now apply turns_cre|now apply turns_ann].
Qed.
Lemma both_flip : forall (f : nat * nat -> option C) k, rng2 k -> both_spins K nss f (tau2 k) = both_spins K nss f k.
Proof.
  intros f [i j] (Hi & Hj). unfold lev in *. cbn [fst snd] in *. unfold tau2, both_spins, SpinSwap.flip. cbn [fst snd].
  destruct (Nat.ltb_spec i nss) as [Ai|Ai], (Nat.ltb_spec j nss) as [Aj|Aj]; cbn [andb].
  - destruct (Nat.ltb_spec (i + nss) nss); [lia|]. cbn [andb].
    destruct (Nat.leb_spec nss (i + nss)); [|lia]. destruct (Nat.leb_spec nss (j + nss)); [|lia]. cbn [andb]. f_equal. f_equal; lia.
  - destruct (Nat.ltb_spec (i + nss) nss); [lia|]. cbn [andb]. destruct (Nat.leb_spec nss i); [lia|]. cbn [andb].
    destruct (Nat.leb_spec nss (j - nss)); [lia|]. now rewrite Bool.andb_false_r.
  - destruct (Nat.ltb_spec (j + nss) nss); [lia|]. rewrite Bool.andb_false_r. destruct (Nat.leb_spec nss j); [lia|]. rewrite Bool.andb_false_r.
    destruct (Nat.leb_spec nss (i - nss)); [lia|]. reflexivity.
  - destruct (Nat.ltb_spec (i - nss) nss); [|lia]. destruct (Nat.ltb_spec (j - nss) nss); [|lia].
    destruct (Nat.leb_spec nss i); [|lia]. destruct (Nat.leb_spec nss j); [|lia]. reflexivity.
Qed.
Lemma hs_new_sym : forall hh az x, wf_input K x -> orbitals K (hs_orb nss) (named_hs K isz hh az x) ->
  new_sym K eq2 tau2 rng2 never never (make_hsingle_dict K isz hh true nss az x).
Proof.
  intros hh az x W O. split; [apply hs_nodup; auto|].
  assert (G : forall k, dget eq2 (make_hsingle_dict K isz hh true nss az x) k = both_spins K nss (named_hs K isz hh az x) k).
  { intros k. rewrite hs_dict_get by auto. reflexivity. }
  split; [|split; [intros k Hk; rewrite !G; now apply both_flip|split; [intros k []|intros k v []]]].
  intros [i j] Hk. destruct (dget eq2 (make_hsingle_dict K isz hh true nss az x) (i, j)) as [v|] eqn:E; [|apply dget_none in E; contradiction].
  rewrite G in E. unfold both_spins in E. unfold rng2, lev. cbn [fst snd].
  destruct (Nat.ltb_spec i nss), (Nat.ltb_spec j nss); cbn [andb] in E; try lia;
  (destruct (Nat.leb nss i && Nat.leb nss j)%bool eqn:X; [|discriminate E]; apply O in E; unfold hs_orb in E; cbn [fst snd] in E; lia).
Qed.

(** *** coulomb *)
Definition rng4 (q : key4) : Prop := let '(a, b, c, e) := q in lev a /\ lev b /\ lev c /\ lev e.
Definition ups (q : key4) : bool * bool * bool * bool :=
  let '(a, b, c, e) := q in (Nat.ltb a nss, Nat.ltb b nss, Nat.ltb c nss, Nat.ltb e nss).
Definition flip4 (q : key4) : key4 := let '(a, b, c, e) := q in (flip a, flip b, flip c, flip e).
(** (m, n down, m down, n) *)
Definition exch4 (q : key4) : bool := let '(a, b, c, e) := q in (Nat.eqb c (flip a) && Nat.eqb e (flip b))%bool.
Definition tau4 (hc ml : bool) (q : key4) : key4 :=
  match ups q with
  | (true, false, false, true) => if ml then (if (hc && exch4 q)%bool then q else same4 (flip4 q)) else flip4 q
  | (false, true, true, false) => if ml then q else flip4 q
  | _ => flip4 q
  end.
Definition van4 (ml : bool) (q : key4) : Prop :=
  match ups q with
  | (true, true, true, true) | (false, false, false, false) | (true, false, false, true) => False
  | (false, true, true, false) => ml = true
  | _ => True
  end.
Definition rel4 (hc : bool) (q : key4) : Prop :=
  hc = true /\ ups q = (true, false, false, true) /\ exch4 q = true /\ (let '(a, b, c, e) := q in a <> e).

Lemma tau4_rng : forall hc ml q, rng4 q -> rng4 (tau4 hc ml q).
Proof.
  intros hc ml [[[a b] c] e] (Ha & Hb & Hc & He). pose proof (flip_lt nss a Ha). pose proof (flip_lt nss b Hb). pose proof (flip_lt nss c Hc). pose proof (flip_lt nss e He).
  assert (R0 : rng4 (a, b, c, e)) by (cbn; auto). assert (R1 : rng4 (flip4 (a, b, c, e))) by (cbn; auto).
  assert (R2 : rng4 (same4 (flip4 (a, b, c, e)))) by (cbn; auto).
  unfold tau4. destruct (ups (a, b, c, e)) as [[[[|] [|]] [|]] [|]]; try exact R1; destruct ml; try exact R1; try exact R0. destruct (hc && exch4 (a, b, c, e))%bool; assumption.
Qed.
Lemma ltb_flip : forall i, lev i -> Nat.ltb (flip i) nss = negb (Nat.ltb i nss).
Proof. intros i H. unfold lev, SpinSwap.flip in *. destruct (Nat.ltb_spec i nss); cbn [negb]; [apply Nat.ltb_ge|apply Nat.ltb_lt]; lia. Qed.
Lemma exch_same_flip : forall q, rng4 q -> exch4 (same4 (flip4 q)) = exch4 q.
Proof.
  intros [[[a b] c] e] (Ha & Hb & Hc & He). cbn [flip4 same4 exch4]. rewrite !flip_flip by auto.
  assert (X : forall i j, lev i -> lev j -> Nat.eqb (flip i) j = Nat.eqb i (flip j)).
  { intros i j Hi Hj. rewrite <- (flip_flip nss j Hj) at 1. apply flip_eqb; auto. now apply flip_lt. }
  rewrite (X e b), (X c a) by auto. apply Bool.andb_comm.
Qed.
Lemma tau4_tau4 : forall hc ml q, rng4 q -> tau4 hc ml (tau4 hc ml q) = q.
Proof.
  intros hc ml q R. destruct q as [[[a b] c] e]. destruct (R) as (Ha & Hb & Hc & He).
  pose proof (ltb_flip a Ha) as La. pose proof (ltb_flip b Hb) as Lb. pose proof (ltb_flip c Hc) as Lc. pose proof (ltb_flip e He) as Le.
  assert (F4 : flip4 (flip4 (a, b, c, e)) = (a, b, c, e)) by (cbn; now rewrite !flip_flip).
  assert (U1 : ups (flip4 (a, b, c, e)) = (negb (Nat.ltb a nss), negb (Nat.ltb b nss), negb (Nat.ltb c nss), negb (Nat.ltb e nss))) by (unfold ups, flip4, same4; now rewrite La, Lb, Lc, Le).
  assert (U2 : ups (same4 (flip4 (a, b, c, e))) = (negb (Nat.ltb b nss), negb (Nat.ltb a nss), negb (Nat.ltb e nss), negb (Nat.ltb c nss))) by (unfold ups, flip4, same4; now rewrite La, Lb, Lc, Le).
  assert (U0 : ups (a, b, c, e) = (Nat.ltb a nss, Nat.ltb b nss, Nat.ltb c nss, Nat.ltb e nss)) by reflexivity.
  assert (X := exch_same_flip _ R). unfold tau4 at 2. rewrite U0.
  destruct (Nat.ltb a nss) eqn:Ea, (Nat.ltb b nss) eqn:Eb, (Nat.ltb c nss) eqn:Ec, (Nat.ltb e nss) eqn:Ee; cbn [negb] in *.
  all: try (unfold tau4; rewrite U1, F4; reflexivity).
  - destruct ml; [|unfold tau4; rewrite U1, F4; reflexivity]. destruct (hc && exch4 (a, b, c, e))%bool eqn:E.
    + unfold tau4. rewrite U0, E. reflexivity.
    + unfold tau4. rewrite U2, X, E. cbn [same4 flip4]. now rewrite !flip_flip.
  - destruct ml; unfold tau4; [rewrite U0; reflexivity|]. rewrite U1, F4. reflexivity.
Qed.
Lemma tb_plain : forall hc ml q U, rng4 q -> (let '(a, b, c, e) := q in Nat.ltb c nss = Nat.ltb e nss \/ ml = false) ->
  turns (coul_op K hc ml (q, U)) (coul_op K hc ml (flip4 q, U)).
Proof.
  intros hc ml [[[a b] c] e] U (Ha & Hb & Hc & He) Hs. unfold coul_op. cbn [flip4]. apply turns_plus; [now apply two_body_turns|].
  replace (wants_conj hc ml (flip a) (flip b) (flip c) (flip e)) with (wants_conj hc ml a b c e); [destruct (wants_conj hc ml a b c e)|].
  - now apply two_body_turns.
  - apply turns_zero.
  - unfold wants_conj. rewrite !flip_eqb by auto. destruct Hs as [Hs| ->]; [|reflexivity].
    replace (Nat.ltb (flip c) (flip e)) with (Nat.ltb c e); auto. unfold SpinSwap.flip. unfold lev in *.
    destruct (Nat.ltb_spec c nss), (Nat.ltb_spec e nss); try discriminate; destruct (Nat.ltb_spec c e); symmetry; (apply Nat.ltb_lt || apply Nat.ltb_ge); lia.
Qed.
Lemma coul_turns : forall hc ml q U, rng4 q -> (van4 ml q -> U = 0) -> (rel4 hc q -> conj U = U) ->
  turns (coul_op K hc ml (q, U)) (coul_op K hc ml (tau4 hc ml q, U)).
Proof.
  intros hc ml q U R V RL. destruct q as [[[a b] c] e]. destruct (R) as (Ha & Hb & Hc & He).
  assert (Z : van4 ml (a, b, c, e) -> forall r, turns (coul_op K hc ml (a, b, c, e, U)) (coul_op K hc ml (r, U))).
  { intros X r f s Hs. rewrite (V X). rewrite coul_zero. unfold xch. rewrite coul_zero. ring. }
  assert (UP : ups (a, b, c, e) = (Nat.ltb a nss, Nat.ltb b nss, Nat.ltb c nss, Nat.ltb e nss)) by reflexivity.
  unfold tau4. unfold van4 in Z. rewrite UP in *.
  destruct (Nat.ltb_spec a nss) as [La|La], (Nat.ltb_spec b nss) as [Lb|Lb], (Nat.ltb_spec c nss) as [Lc|Lc], (Nat.ltb_spec e nss) as [Le|Le];
    try (apply Z; exact I).
  - apply tb_plain; auto. left. apply Nat.ltb_lt in Lc, Le. now rewrite Lc, Le.
  - (* up, down, down, up *)
    destruct ml; [|apply tb_plain; auto].
    assert (Fa : flip a = (a + nss)%nat) by (unfold SpinSwap.flip; destruct (Nat.ltb_spec a nss); lia).
    assert (Fe : flip e = (e + nss)%nat) by (unfold SpinSwap.flip; destruct (Nat.ltb_spec e nss); lia).
    assert (Fb : flip b = (b - nss)%nat) by (unfold SpinSwap.flip; destruct (Nat.ltb_spec b nss); lia).
    assert (Fc : flip c = (c - nss)%nat) by (unfold SpinSwap.flip; destruct (Nat.ltb_spec c nss); lia).
    assert (Wc : wants_conj hc true a b c e = (hc && negb (Nat.eqb a e && Nat.eqb b c))%bool).
    { unfold wants_conj. destruct (Nat.ltb_spec c e); [unfold lev in *; lia|]. cbn. now rewrite Bool.andb_true_r. }
    assert (Ra : lev (flip a)) by now apply flip_lt. assert (Rb : lev (flip b)) by now apply flip_lt.
    assert (Rc : lev (flip c)) by now apply flip_lt. assert (Re : lev (flip e)) by now apply flip_lt.
    destruct (hc && exch4 (a, b, c, e))%bool eqn:EX.
    + apply Bool.andb_true_iff in EX. destruct EX as (-> & EX). pose proof EX as EX'. cbn [exch4] in EX. apply Bool.andb_true_iff in EX. destruct EX as (E1 & E2).
      apply Nat.eqb_eq in E1, E2. unfold coul_op. rewrite Wc. cbn [andb].
      destruct (Nat.eqb_spec a e) as [Eae|Nae].
      * replace (Nat.eqb b c) with true by (symmetry; apply Nat.eqb_eq; unfold lev in *; lia). cbn [andb negb].
        apply turns_plus; [|apply turns_zero]. eapply turns_same; [apply two_body_turns; auto|].
        intros f s Hs. rewrite (two_body_same U (flip a) (flip b) (flip c) (flip e) Ra Rb Rc Re f s Hs).
        replace (flip a) with b by (unfold lev in *; lia). replace (flip b) with a by (unfold lev in *; lia).
        replace (flip e) with c by (unfold lev in *; lia). replace (flip c) with e by (unfold lev in *; lia). reflexivity.
      * cbn [andb negb]. assert (RU : conj U = U).
        { apply RL. split; auto. }
        rewrite RU. subst c e. rewrite !flip_flip in * by auto.
        assert (T : turns (oplus C (two_body K U a b (flip a) (flip b)) (two_body K U (flip b) (flip a) b a))
                          (oplus C (two_body K U (flip a) (flip b) a b) (two_body K U b a (flip b) (flip a)))).
        { apply turns_plus.
          - pose proof (two_body_turns U a b (flip a) (flip b) Ha Hb Ra Rb) as T0. rewrite !flip_flip in T0 by auto. exact T0.
          - pose proof (two_body_turns U (flip b) (flip a) b a Rb Ra Hb Ha) as T0. rewrite !flip_flip in T0 by auto. exact T0. }
        eapply turns_same; [exact T|]. intros f s Hs. unfold oplus.
        rewrite (two_body_same U (flip a) (flip b) a b Ra Rb Ha Hb f s Hs). rewrite (two_body_same U b a (flip b) (flip a) Hb Ha Rb Ra f s Hs). ring.
    + cbn [flip4 same4]. unfold coul_op. rewrite Wc.
      replace (wants_conj hc true (flip b) (flip a) (flip e) (flip c)) with (hc && negb (Nat.eqb a e && Nat.eqb b c))%bool.
      2: { unfold wants_conj. rewrite !flip_eqb by auto. destruct (Nat.ltb_spec (flip e) (flip c)); [unfold lev in *; lia|]. cbn [andb negb].
           rewrite Bool.andb_true_r. f_equal. f_equal. apply Bool.andb_comm. }
      apply turns_plus.
      * eapply turns_same; [apply two_body_turns; auto|]. apply two_body_same; auto.
      * destruct (hc && negb (Nat.eqb a e && Nat.eqb b c))%bool; [|apply turns_zero].
        eapply turns_same; [apply two_body_turns; auto|]. apply two_body_same; auto.
  - (* down, up, up, down *)
    destruct ml; [apply Z; reflexivity|]. apply tb_plain; auto.
  - apply tb_plain; auto. left. apply Nat.ltb_ge in Lc, Le. now rewrite Lc, Le.
Qed.

Definition rows_of (x : input key4 C) : list (key4 * C) := match x with InDict l | InList l => l | _ => [] end.
(** what is asked of a coulomb argument: elements between the nss orbitals; with herm_c no operator twice and real exchange
    elements (the two-body matrix elements of a spin-independent interaction have them real) *)
Definition cl_input_ok (hc : bool) (x : input key4 C) : Prop := wf_input K x /\ (forall q, In q (map fst (rows_of x)) -> in_orb q) /\
  (hc = true -> no_twins (map fst (rows_of x)) /\ (forall m n U, m <> n -> In ((m, n, m, n), U) (rows_of x) -> conj U = U)).
Definition cl_plain (x : input key4 C) : dict key4 C :=
  match x with InDict d => d | InList l => dupdate eq4 [] (filter (fun e => negb (isz (snd e))) l) | _ => [] end.
Lemma cl_dict_plain : forall hc ml x, make_coulomb_dict K isz hc ml true nss x = coulomb_spin K hc ml nss (cl_plain x).
Proof. intros hc ml [d|l|sh f|]; reflexivity. Qed.
Lemma cl_plain_rows : forall x e, In e (cl_plain x) -> In e (rows_of x).
Proof.
  intros [d|l|sh f|] [q v] H; cbn [cl_plain rows_of] in *; auto. 
  assert (ND : NoDup (map fst (dupdate eq4 [] (filter (fun e => negb (isz (snd e))) l)))) by (apply dupdate_nodup; constructor).
  apply (dget_nodup eq4 _ _ _ ND) in H. rewrite dupdate_get in H. unfold last_of in H.
  destruct (dget eq4 (rev _) q) as [w|] eqn:E; [|discriminate H]. injection H as ->. apply dget_in in E. apply in_rev in E. now apply filter_In in E.
Qed.
Lemma cl_plain_nodup : forall x, wf_input K x -> NoDup (map fst (cl_plain x)).
Proof. intros [d|l|sh f|] W; cbn [cl_plain]; [exact W|apply dupdate_nodup; constructor|constructor|constructor]. Qed.
Lemma no_twins_incl : forall a b, (forall q, In q a -> In q b) -> no_twins b -> no_twins a.
Proof. intros a b H T q Hq. destruct (T q (H q Hq)) as (T1 & T2 & T3). split; [|split]; intros N I; [apply (T1 N)|apply (T2 N)|apply (T3 N)]; auto. Qed.
Lemma last_with_ext : forall qs qs' d, (forall q, In q qs <-> In q qs') -> last_with qs d = last_with qs' d.
Proof.
  intros qs qs' d H. unfold last_with. f_equal. apply find_ext_in. intros e _. destruct (in_dec eq4 (fst e) qs) as [I1|I1], (in_dec eq4 (fst e) qs') as [I2|I2]; auto.
  - exfalso. apply I2. now apply H.
  - exfalso. apply I1. now apply H.
Qed.
Lemma exch4_mixed : forall a b c e, lev a -> lev b -> lev c -> lev e -> ups (a, b, c, e) = (true, false, false, true) ->
  exch4 (a, b, c, e) = (Nat.eqb a (c - nss) && Nat.eqb (b - nss) e)%bool.
Proof.
  intros a b c e Ha Hb Hc He U. cbn [ups] in U. injection U as U1 U2 U3 U4. cbn [exch4]. unfold SpinSwap.flip. rewrite U1, U2.
  apply Nat.ltb_lt in U1, U4. apply Nat.ltb_ge in U2, U3. f_equal.
  - destruct (Nat.eqb_spec c (a + nss)), (Nat.eqb_spec a (c - nss)); auto; lia.
  - apply Nat.eqb_sym.
Qed.
Lemma spin_val_tau : forall hc ml d q, rng4 q -> spin_val hc ml d (tau4 hc ml q) = spin_val hc ml d q.
Proof.
  intros hc ml d [[[a b] c] e] R. destruct (R) as (Ha & Hb & Hc & He).
  pose proof (ltb_flip a Ha) as La. pose proof (ltb_flip b Hb) as Lb. pose proof (ltb_flip c Hc) as Lc. pose proof (ltb_flip e He) as Le.
  assert (Fu : forall i, Nat.ltb i nss = true -> flip i = (i + nss)%nat) by (intros i H; unfold SpinSwap.flip; now rewrite H).
  assert (Fd : forall i, Nat.ltb i nss = false -> flip i = (i - nss)%nat) by (intros i H; unfold SpinSwap.flip; now rewrite H).
  assert (EM := exch4_mixed a b c e Ha Hb Hc He). assert (EM' := exch_same_flip _ R).
  assert (EM2 := exch4_mixed (flip b) (flip a) (flip e) (flip c) (flip_lt _ _ Hb) (flip_lt _ _ Ha) (flip_lt _ _ He) (flip_lt _ _ Hc)).
  unfold tau4. cbn [ups] in *. cbn [flip4 same4] in EM'. rewrite La, Lb, Lc, Le in EM2.
  destruct (Nat.ltb a nss) eqn:Ea, (Nat.ltb b nss) eqn:Eb, (Nat.ltb c nss) eqn:Ec, (Nat.ltb e nss) eqn:Ee; cbn [negb] in *;
    try (cbn [flip4 spin_val]; rewrite ?La, ?Lb, ?Lc, ?Le, ?Ea, ?Eb, ?Ec, ?Ee; reflexivity).
  - cbn [flip4 spin_val]. rewrite ?La, ?Lb, ?Lc, ?Le, ?Ea, ?Eb, ?Ec, ?Ee. rewrite !Fu by auto. apply last_with_ext. intros q. rewrite !Nat.add_sub. reflexivity.
  - destruct ml.
    + specialize (EM eq_refl). specialize (EM2 eq_refl). destruct (hc && exch4 (a, b, c, e))%bool eqn:EX; [reflexivity|].
      cbn [flip4 same4 spin_val]. rewrite ?La, ?Lb, ?Lc, ?Le, ?Ea, ?Eb, ?Ec, ?Ee. rewrite <- Bool.andb_assoc, <- EM2, EM', EX. rewrite <- Bool.andb_assoc, <- EM, EX.
      rewrite !(Fu a), !(Fu e), !(Fd b), !(Fd c) by auto. rewrite !Nat.add_sub. apply last_with_ext. intros q. cbn [In]. tauto.
    + cbn [flip4 spin_val]. rewrite ?La, ?Lb, ?Lc, ?Le, ?Ea, ?Eb, ?Ec, ?Ee. rewrite (Fu a), (Fu e), (Fd b), (Fd c) by auto. now rewrite !Nat.add_sub.
  - destruct ml; [reflexivity|]. cbn [flip4 spin_val]. rewrite ?La, ?Lb, ?Lc, ?Le, ?Ea, ?Eb, ?Ec, ?Ee. rewrite (Fd a), (Fd e), (Fu b), (Fu c) by auto. now rewrite !Nat.add_sub.
  - cbn [flip4 spin_val]. rewrite ?La, ?Lb, ?Lc, ?Le, ?Ea, ?Eb, ?Ec, ?Ee. rewrite !Fd by auto. reflexivity.
Qed.
Lemma last_with_in : forall qs d v, last_with qs d = Some v -> exists q, In q qs /\ In (q, v) d.
Proof.
  intros qs d v H. unfold last_with in H. destruct (find _ (rev d)) as [[q w]|] eqn:E; [|discriminate H]. injection H as <-. apply find_some in E.
  destruct E as (E1 & E2). cbn [fst] in E2. destruct (in_dec eq4 q qs) as [I1|]; [|discriminate]. exists q. split; auto. now apply in_rev.
Qed.
Lemma cl_new_sym : forall hc ml x, (hc = true -> ml = true) -> cl_input_ok hc x ->
  new_sym K eq4 (tau4 hc ml) rng4 (van4 ml) (rel4 hc) (make_coulomb_dict K isz hc ml true nss x).
Proof.
  intros hc ml x HM (W & O & HC). split; [now apply cl_nodup|].
  assert (PK : forall q, In q (map fst (cl_plain x)) -> In q (map fst (rows_of x))).
  { intros q H. apply in_map_iff in H. destruct H as (e & <- & He). apply in_map. now apply cl_plain_rows. }
  assert (O' : forall q, In q (map fst (cl_plain x)) -> in_orb q) by auto.
  assert (G : forall q, dget eq4 (make_coulomb_dict K isz hc ml true nss x) q = spin_val hc ml (cl_plain x) q).
  { intros q. rewrite cl_dict_plain. apply C43_coulomb; auto; [now apply cl_plain_nodup|].
    intros E. split; auto. apply (no_twins_incl _ (map fst (rows_of x))); auto. now apply HC. }
  split; [|split; [intros q Hq; rewrite !G; now apply spin_val_tau|split]].
  - intros q Hq. destruct (dget eq4 (make_coulomb_dict K isz hc ml true nss x) q) as [v|] eqn:E; [|apply dget_none in E; contradiction].
    rewrite G in E. destruct q as [[[a b] c] e]. cbn [spin_val] in E. unfold rng4, lev.
    assert (L : forall qs, last_with qs (cl_plain x) = Some v -> exists m n k l, In (m, n, k, l) qs /\ (m < nss /\ n < nss /\ k < nss /\ l < nss)%nat).
    { intros qs H. apply last_with_in in H. destruct H as ([[[m n] k] l] & H1 & H2). exists m, n, k, l. split; auto.
      apply (O' (m, n, k, l)). apply in_map_iff. exists ((m, n, k, l), v). auto. }
    assert (INJ : forall x y z w x' y' z' w' : nat, (x, y, z, w) = (x', y', z', w') -> x = x' /\ y = y' /\ z = z' /\ w = w') by (intros; injection H; auto).
    destruct (Nat.ltb_spec a nss), (Nat.ltb_spec b nss), (Nat.ltb_spec c nss), (Nat.ltb_spec e nss); try discriminate E;
      try (destruct ml; [try destruct (hc && Nat.eqb a (c - nss) && Nat.eqb (b - nss) e)%bool|]); try discriminate E;
      apply L in E; destruct E as (m & n & k & l & E & B); cbn [In] in E;
      repeat match goal with H : _ \/ _ |- _ => destruct H as [H|H] end; try contradiction; apply INJ in E; lia.
  - intros [[[a b] c] e] V. rewrite G. unfold van4 in V. cbn [ups] in V. cbn [spin_val].
    destruct (Nat.ltb a nss), (Nat.ltb b nss), (Nat.ltb c nss), (Nat.ltb e nss); try contradiction; try reflexivity. now rewrite V.
  - intros [[[a b] c] e] v (Eh & Eu & Ex & Ne) E. rewrite G in E. cbn [spin_val ups] in *. injection Eu as E1 E2 E3 E4. rewrite E1, E2, E3, E4 in E.
    rewrite (HM Eh) in *. cbn [exch4] in Ex. unfold SpinSwap.flip in Ex. rewrite E1, E2 in Ex.
    apply Bool.andb_true_iff in Ex. rewrite !Nat.eqb_eq in Ex. destruct Ex as (Ex1 & Ex2). apply Nat.ltb_ge in E2, E3. apply Nat.ltb_lt in E1, E4.
    assert (X : (hc && Nat.eqb a (c - nss) && Nat.eqb (b - nss) e)%bool = true).
    { rewrite Eh. cbn [andb]. apply Bool.andb_true_iff. rewrite !Nat.eqb_eq. lia. }
    rewrite X in E. apply last_with_in in E. destruct E as (q & [<-|[]] & H). apply cl_plain_rows in H.
    destruct (HC Eh) as (_ & HR). apply (HR a e); auto. replace (c - nss)%nat with a in H by lia. replace (b - nss)%nat with e in H by lia. exact H.
Qed.

(** *** histories *)
Variables (herm_hs herm_c m_less_n ham_ssq_q : bool).
Hypothesis HM : herm_c = true -> m_less_n = true.
Definition hs_arg_ok (az : bool) (a : arg K (nat * nat)) : Prop :=
  match a with AFresh _ _ x => wf_input K x /\ orbitals K (hs_orb nss) (named_hs K isz herm_hs az x) | ANone _ _ => True | ASelf _ _ => False end.
Definition cl_arg_ok (a : arg K key4) : Prop :=
  match a with AFresh _ _ x => cl_input_ok herm_c x | ANone _ _ => True | ASelf _ _ => False end.
Definition spin_op_ok (o : qop K) : Prop :=
  match o with
  | QAdd _ hs cl => hs_arg_ok false hs /\ cl_arg_ok cl
  | QChange _ hs cl => hs_arg_ok true hs /\ cl_arg_ok cl
  | QRemove _ _ => True
  end.
Definition sym_qd (q : QD K) : Prop :=
  self_sym K eq2 tau2 rng2 never never (q_hs K q) /\ self_sym K eq4 (tau4 herm_c m_less_n) rng4 (van4 m_less_n) (rel4 herm_c) (q_cl K q).
Lemma step_sym : forall o q q', spin_op_ok o -> sym_qd q -> qd_step K isz herm_hs herm_c m_less_n ham_ssq_q true nss q o = Some q' -> sym_qd q'.
Proof.
  intros o q q' OK (S1 & S2) H.
  assert (NH : forall az a self, hs_arg_ok az a -> new_sym K eq2 tau2 rng2 never never (hs_arg K isz herm_hs true nss self az a)).
  { intros az [|x|] self X; cbn [hs_arg]; [apply new_nil|destruct X; now apply hs_new_sym|destruct X]. }
  assert (NC : forall a self, cl_arg_ok a -> new_sym K eq4 (tau4 herm_c m_less_n) rng4 (van4 m_less_n) (rel4 herm_c) (cl_arg K isz herm_c m_less_n true nss self a)).
  { intros [|x|] self X; cbn [cl_arg]; [apply new_nil|now apply cl_new_sym|destruct X]. }
  destruct o as [hs cl|hs cl|lst]; cbn [qd_step] in H.
  - destruct OK as (O1 & O2). unfold qd_add in H. destruct (ham_add _ _ _ _ _ _ _ _ _) as [h|]; [|discriminate]. injection H as <-.
    split; cbn [q_hs q_cl]; apply add_sym; auto.
  - destruct OK as (O1 & O2). unfold qd_change in H.
    pose proof (change_sym K isz isz_spec eq2 tau2 rng2 never never _ _ S1 (NH true hs (q_hs K q) O1)) as C1.
    pose proof (change_sym K isz isz_spec eq4 _ rng4 _ _ _ _ S2 (NC cl (q_cl K q) O2)) as C2.
    destruct (dchange K isz eq2 true (q_hs K q) _) as [hs' dh]. destruct (dchange K isz eq4 true (q_cl K q) _) as [cl' dc].
    destruct (ham_add _ _ _ _ _ _ _ _ _) as [h|]; [|discriminate]. injection H as <-. split; assumption.
  - unfold qd_remove in H. destruct (remove_fock_states (q_si K q) lst) as [si|]; [|discriminate].
    unfold init_hamiltonian in H. destruct (ham_add _ _ _ _ _ _ _ _ _) as [h|]; [|discriminate]. injection H as <-. split; assumption.
Qed.
Lemma range_list : forall n, NoDup (list_prod (seq 0 n) (seq 0 n)) /\ NoDup (list_prod (list_prod (list_prod (seq 0 n) (seq 0 n)) (seq 0 n)) (seq 0 n)).
Proof. intros n. split; repeat apply list_prod_nodup; apply seq_NoDup. Qed.

(** The Hamiltonian after any history commutes with exchanging the spins.  By C18_operator its matrix elements are the
    entries of the stored Hamiltonian blocks. *)
Theorem C43_commutes : forall si hs cl os q0 q,
  wf_input K hs -> orbitals K (hs_orb nss) (named_hs K isz herm_hs false hs) -> cl_input_ok herm_c cl -> Forall spin_op_ok os ->
  qd_init K isz herm_hs herm_c m_less_n ham_ssq_q true nss si hs cl = Some q0 ->
  qd_run K isz herm_hs herm_c m_less_n ham_ssq_q true nss q0 os = Some q ->
  forall f s, length s = (2 * nss)%nat ->
    xch C nss (full_op K herm_hs herm_c m_less_n q f) s = full_op K herm_hs herm_c m_less_n q (xch C nss f) s.
Proof.
  intros si hs cl os q0 q W O CO HO E0 E.
  assert (S0 : sym_qd q0).
  { unfold qd_init, init_hamiltonian in E0. destruct (ham_add _ _ _ _ _ _ _ _ _) as [h|]; [|discriminate]. injection E0 as <-.
    split; cbn [q_hs q_cl]; apply new_self; [now apply hs_new_sym|now apply cl_new_sym]. }
  assert (SQ : sym_qd q).
  { clear E0. revert q0 S0 E. induction HO as [|o os Ho _ IH]; intros q0 S0 E; cbn in E; [now injection E as <-|].
    destruct (qd_step _ _ _ _ _ _ _ _ q0 o) as [q1|] eqn:E1; [|discriminate]. apply (IH q1); auto. now apply (step_sym o q0 q1). }
  destruct SQ as (S1 & S2). destruct (range_list (2 * nss)) as (N2 & N4).
  apply (turns_plus C nss).
  - apply (sum_turns K eq4 (tau4 herm_c m_less_n) rng4 (van4 m_less_n) (rel4 herm_c) nss (coul_op K herm_c m_less_n) _
      (fun k f s => coul_zero herm_c m_less_n k f s) N4).
    + intros [[[a b] c] e]. rewrite !in_prod_iff, !in_seq. unfold rng4, lev. lia.
    + apply tau4_rng.
    + apply tau4_tau4.
    + intros k v. apply coul_turns.
    + exact S2.
  - apply (sum_turns K eq2 tau2 rng2 never never nss (hop_op K herm_hs) _ (fun k f s => hop_zero herm_hs k f s) N2).
    + intros [i j]. rewrite !in_prod_iff, !in_seq. unfold rng2, lev. cbn [fst snd]. lia.
    + intros [i j] (Hi & Hj). split; cbn [tau2 fst snd] in *; now apply flip_lt.
    + intros [i j] (Hi & Hj). unfold tau2. cbn [fst snd] in *. now rewrite !flip_flip.
    + intros k v Hk _ _. now apply hop_turns.
    + exact S1.
Qed.
End Spin.
Print Assumptions C43_hsingle.
Print Assumptions C43_tleads.
Print Assumptions C43_velph.
Print Assumptions C43_coulomb.
Print Assumptions C43_commutes.

(** *** examples: two orbitals, levels 0, 1 (up) and 2, 3 (down) *)
Definition s_hs : input (nat * nat) (Cx ZRing) := InList [((0, 0), ZC 5 0); ((0, 1), ZC 2 1)].
Definition s_cl : input key4 (Cx ZRing) := InList [((0, 0, 0, 0), ZC 9 0); ((0, 1, 1, 0), ZC 4 0); ((0, 1, 0, 1), ZC 3 0); ((0, 0, 1, 0), ZC 1 2)].
Definition s_ops : list (qop ZRing) :=
  [QAdd ZRing (AFresh ZRing _ (InList [((1, 1), ZC 7 0)])) (ANone ZRing _);
   QChange ZRing (AFresh ZRing _ (InDict [((0, 0), ZC 6 0)])) (AFresh ZRing _ (InDict [((1, 1, 1, 1), ZC 8 0); ((0, 1, 0, 1), ZC 2 0)]));
   QRemove ZRing [15]].
Definition s_run := match qd_init ZRing zisz true true true false true 2 (si_init 4 "charge") s_hs s_cl with
                    | None => None | Some q => qd_run ZRing zisz true true true false true 2 q s_ops end.
Example C43_case :
  match s_run with None => None | Some q => Some (q_hs ZRing q, q_cl ZRing q) end =
  Some ([((0, 0), ZC 6 0); ((0, 1), ZC 2 1); ((2, 2), ZC 6 0); ((2, 3), ZC 2 1); ((1, 1), ZC 7 0); ((3, 3), ZC 7 0)],
        [((0, 0, 0, 0), ZC 9 0); ((0, 1, 1, 0), ZC 4 0); ((0, 1, 0, 1), ZC 2 0); ((0, 0, 1, 0), ZC 1 2);
         ((0, 2, 2, 0), ZC 9 0); ((2, 2, 2, 2), ZC 9 0); ((0, 3, 3, 0), ZC 4 0); ((1, 2, 2, 1), ZC 4 0); ((2, 3, 3, 2), ZC 4 0);
         ((0, 3, 2, 1), ZC 2 0); ((2, 3, 2, 3), ZC 2 0); ((0, 2, 3, 0), ZC 1 2); ((0, 2, 2, 1), ZC 1 2); ((2, 2, 3, 2), ZC 1 2);
         ((1, 1, 1, 1), ZC 8 0); ((1, 3, 3, 1), ZC 8 0); ((3, 3, 3, 3), ZC 8 0)]).
Proof. vm_compute. reflexivity. Qed.
(** the hypotheses of C43_commutes hold for this history *)
Example C43_case_hyps :
  wf_input ZRing s_hs /\ orbitals ZRing (hs_orb 2) (named_hs ZRing zisz true false s_hs) /\ cl_input_ok ZRing 2 true s_cl /\
  Forall (spin_op_ok ZRing zisz 2 true true) s_ops.
Proof.
  assert (ROW : forall (zc : bool) (l : list ((nat * nat) * Cx ZRing)), (forall e, In e l -> hs_orb 2 (fst e)) ->
    orbitals ZRing (hs_orb 2) (named_hs ZRing zisz true zc (InList l)) /\ orbitals ZRing (hs_orb 2) (named_hs ZRing zisz true zc (InDict l))).
  { intros zc l H. assert (G : forall k v, row_of ZRing eq2 l k = Some v -> hs_orb 2 k).
    { intros k v E. rewrite row_dget in E. apply dget_in in E. apply in_rev in E. apply (H (k, v)). exact E. }
    split; intros k v E; apply (G k v); exact E. }
  assert (CL : forall l : list (key4 * Cx ZRing), NoDup (map fst l) -> (forall q, In q (map fst l) -> in_orb 2 q) -> no_twins (map fst l) ->
    (forall m n U, m <> n -> In ((m, n, m, n), U) l -> conj U = U) -> cl_input_ok ZRing 2 true (InList l) /\ cl_input_ok ZRing 2 true (InDict l)).
  { intros l H1 H2 H3 H4. split; (split; [cbn; auto|split; [exact H2|intros _; split; [exact H3|exact H4]]]). }
  assert (DEC : forall ks : list key4, forallb (fun q => forallb (fun r => (if eq4 r q then true else false) || negb (if in_dec eq4 r ks then true else false))
     [same4 q; conj4 q; same4 (conj4 q)])%bool ks = true -> no_twins ks).
  { intros ks H q Hq. rewrite forallb_forall in H. specialize (H q Hq). cbn [forallb] in H. rewrite !Bool.andb_true_iff, !Bool.orb_true_iff in H.
    destruct H as (H1 & H2 & H3 & _).
    assert (D : forall r, ((if eq4 r q then true else false) = true \/ negb (if in_dec eq4 r ks then true else false) = true) -> r <> q -> ~ In r ks).
    { intros r H N I. destruct (eq4 r q); [contradiction|]. destruct (in_dec eq4 r ks); [|contradiction]. destruct H; discriminate. }
    split; [|split]; apply D; assumption. }
  split; [exact I|]. split.
  { apply ROW. intros e [<-|[<-|[]]]; unfold hs_orb; cbn; lia. }
  split.
  { apply CL.
    - repeat constructor; cbn; intuition discriminate.
    - intros q Hq. cbn in Hq. repeat (destruct Hq as [<-|Hq]; [cbn; lia|]). destruct Hq.
    - apply DEC. reflexivity.
    - intros m n U N Hq. cbn in Hq. repeat (destruct Hq as [E|Hq]; [injection E; intros; subst; try lia; try reflexivity|]). destruct Hq. }
  constructor; [|constructor; [|constructor; [exact I|constructor]]].
  - split; [|exact I]. split; [exact I|]. apply ROW. intros e [<-|[]]; unfold hs_orb; cbn; lia.
  - split; [split; [repeat constructor; intros []|apply ROW; intros e [<-|[]]; unfold hs_orb; cbn; lia]|]. apply CL.
    + repeat constructor; cbn; intuition discriminate.
    + intros q Hq. cbn in Hq. repeat (destruct Hq as [<-|Hq]; [cbn; lia|]). destruct Hq.
    + apply DEC. reflexivity.
    + intros m n U N Hq. cbn in Hq. repeat (destruct Hq as [E|Hq]; [injection E; intros; subst; try lia; try reflexivity|]). destruct Hq.
Qed.

(** *** what does not hold *)
(** The same density-density element given in both orders with different values: each of the keys for opposite spins keeps
    the value that comes last, while both values are kept for equal spins.  Nothing is raised. *)
Theorem C43_overwrite_refuted :
  let d := [((0, 1, 1, 0), ZC 4 0); ((1, 0, 0, 1), ZC 6 0)] in let d' := coulomb_spin ZRing false true 2 d in
  dget eq4 d' (0, 1, 1, 0) = Some (ZC 4 0) /\ dget eq4 d' (0, 3, 3, 0) = Some (ZC 6 0) /\
  dget eq4 d' (2, 3, 3, 2) = Some (ZC 4 0) /\ dget eq4 d' (1, 2, 2, 1) = Some (ZC 6 0).
Proof. vm_compute. repeat split. Qed.
(** With herm_c a complex exchange element gives a Hamiltonian that is Hermitian but treats the spins differently. *)
Theorem C43_complex_exchange_refuted :
  let H := osum (Cx ZRing) (coul_op ZRing true true) (coulomb_spin ZRing true true 2 [((0, 1, 0, 1), ZC 0 1)]) in
  let f := basis (Cx ZRing) [false; true; true; false] in let s := [false; true; true; false] in
  xch (Cx ZRing) 2 (H f) s <> H (xch (Cx ZRing) 2 f) s.
Proof. vm_compute. discriminate. Qed.
