(** Property C60: repeated and continued calls of solve of the 2vN approach. *)
From Coq Require Import List Arith Lia ZArith Bool Reals Lra FunctionalExtensionality.
From Verif Require Import Base DMIndex CRing Layout Kernel Rates VN2K Hilbert VN2Grid VN2Iter VN2Solve VN2Run HilbertProofs PropHilbert PropVN2 PropVN2Grid VN2Eq PropVN2Iter PropVN2Coh.
Import ListNotations.
Local Notation Cr := (Cx RRing).
Local Open Scope R_scope.

(** ** The grid and the cached kernel do not remember earlier calls *)
Definition grid_ok (g : Grid) : Prop := g_Ek g <> [] /\ (g_Ek g = [0] \/ exists n, g_Ek g = linspace (g_dmin g) (g_dmax g) n).
Lemma linspace_length : forall a b n, length (linspace a b n) = n.
Proof. intros. unfold linspace. now rewrite map_length, seq_length. Qed.
Lemma linspace_nth : forall a b n i, (i < n)%nat -> nth i (linspace a b n) 0 = a + INR i * ((b - a) / INR (n - 1)).
Proof.
  intros a b n i Hi. unfold linspace. rewrite (nth_indep _ 0 ((fun i => a + INR i * ((b - a) / INR (n - 1))) 0%nat)) by (rewrite map_length, seq_length; lia).
  rewrite (map_nth (fun i => a + INR i * ((b - a) / INR (n - 1)))), seq_nth by lia. reflexivity.
Qed.
Lemma last_nth : forall (l : list R), last l 0 = nth (length l - 1) l 0.
Proof.
  induction l as [|x [|y l] IH]; auto. change (last (x :: y :: l) 0) with (last (y :: l) 0). rewrite IH. cbn [length].
  replace (S (S (length l)) - 1)%nat with (S (S (length l) - 1)) by lia. reflexivity.
Qed.
Lemma linspace_ends : forall a b n, (2 <= n)%nat -> nth 0 (linspace a b n) 0 = a /\ last (linspace a b n) 0 = b.
Proof.
  intros a b n Hn. split; [rewrite linspace_nth by lia; simpl; ring|]. rewrite last_nth, linspace_length, linspace_nth by lia. field.
  apply not_0_INR. lia.
Qed.
(** the band from all leads *)
Definition band (dlst : list (R * R)) : R * R :=
  match concat (map (fun d => [fst d; snd d]) dlst) with [] => (0, 0) | x :: l => (min_l x l, max_l x l) end.
Lemma make_cases : forall n dlst g, dlst <> [] -> grid_ok g -> exists ch g', make_Ek_grid (Some n) dlst g = Some (g', ch) /\
  ((2 <= n)%nat -> g' = mkGrid (fst (band dlst)) (snd (band dlst)) (linspace (fst (band dlst)) (snd (band dlst)) n)) /\
  length (g_Ek g') = n /\ (n <> 0%nat -> grid_ok g').
Proof.
  intros n dlst g Hd (NE & Hg). unfold make_Ek_grid, band. destruct dlst as [|[x y] dl]; [congruence|]. cbn [map concat app fst snd].
  set (tl := y :: concat (map (fun d => [fst d; snd d]) dl)). set (a := min_l x tl). set (b := max_l x tl). cbn [fst snd].
  assert (LN : n <> 0%nat -> grid_ok (mkGrid a b (linspace a b n))).
  { intros Hn. split; [|right; exists n; reflexivity]. cbn [g_Ek]. intros E. apply (f_equal (@length R)) in E. rewrite linspace_length in E. simpl in E. lia. }
  assert (NEW : exists ch g', Some (mkGrid a b (linspace a b n), true) = Some (g', ch) /\
     ((2 <= n)%nat -> g' = mkGrid a b (linspace a b n)) /\ length (g_Ek g') = n /\ (n <> 0%nat -> grid_ok g')).
  { exists true, (mkGrid a b (linspace a b n)). split; [reflexivity|]. split; [reflexivity|]. split; [apply linspace_length|exact LN]. }
  destruct (Req_EM_T (nth 0 (g_Ek g) 0) a) as [E1|]; [|exact NEW]. destruct (Req_EM_T (last (g_Ek g) 0) b) as [E2|]; [|exact NEW].
  destruct (Nat.eqb_spec (length (g_Ek g)) n) as [E3|]; [|exact NEW].
  exists false, g. split; [reflexivity|]. split; [|split; [exact E3|intros _; split; auto]].
  intros Hn. destruct Hg as [Hg|(m & Hg)].
  { rewrite Hg in E3. simpl in E3. lia. }
  assert (m = n) by (rewrite Hg, linspace_length in E3; exact E3). subst m. destruct (linspace_ends (g_dmin g) (g_dmax g) n Hn) as (X & Y).
  rewrite Hg in E1, E2. rewrite X in E1. rewrite Y in E2. destruct g as [d1 d2 ek]. cbn [g_dmin g_dmax g_Ek] in *. now subst.
Qed.
Definition blank : Grid := mkGrid 0 0 [0].
Lemma blank_ok : grid_ok blank.
Proof. split; [discriminate|left; reflexivity]. Qed.
Lemma cached_none : cached None.
Proof. now left. Qed.
Lemma usable_two : forall g, usable g = true -> (2 <= length (g_Ek g))%nat.
Proof. intros g. unfold usable. destruct (g_Ek g) as [|x [|y l]]; try discriminate. intros _. simpl. lia. Qed.
Lemma prepare_any : forall L E mu temp n dlst ext g old, dlst <> [] -> grid_ok g -> cached old -> (2 <= n)%nat ->
  prepare L E mu temp (Some n) dlst ext g old = prepare L E mu temp (Some n) dlst ext blank None.
Proof.
  intros L E mu temp n dlst ext g old Hd Hg Ho Hn. unfold prepare.
  destruct (make_cases n dlst g Hd Hg) as (c1 & g1 & -> & G1 & _). destruct (make_cases n dlst blank Hd blank_ok) as (c2 & g2 & -> & G2 & _).
  rewrite (G1 Hn), (G2 Hn). set (G := mkGrid _ _ _). destruct (grid_ext _ _ _ _ _ _) as [[ex kl] kr].
  destruct (C57_cache old (length (g_Ek G) + kl + kr) Ho) as (-> & _). destruct (C57_cache None (length (g_Ek G) + kl + kr) cached_none) as (-> & _).
  do 3 f_equal; extensionality l; unfold htransf_fk.
  - rewrite (proj1 (C57_cache old (length (fk mu temp (g_Ek G) l) + kl + kr) Ho)). reflexivity.
  - rewrite (proj1 (C57_cache old (length (fk mu temp (g_Ek G) l) + kl + kr) Ho)). reflexivity.
Qed.

Section Run.
Variables (L : Lay) (nl : nat) (linv : (nat * nat -> Cr) -> option (nat * nat -> Cr)).
Variables (Sys : Type) (en : Sys -> nat -> R) (am : Sys -> nat -> nat -> nat -> Cr).
Variables (Res : Type) (res : Z -> (nat -> R) -> (nat -> nat -> nat -> Cr) -> (nat -> R) -> (nat -> nat -> Z -> Cr) -> (nat -> nat -> Z -> Cr) -> Res).
Local Notation St := (St Sys Res). Local Notation Par := (Par Sys).
Local Notation step := (step L nl linv Sys Res res). Local Notation steps := (steps L nl linv Sys Res res).
Local Notation solve := (solve L nl linv Sys en am Res res). Local Notation run := (run L nl linv Sys en am Res res).
Local Notation new := (new Sys Res). Local Notation begin := (begin L Sys Res).
Local Notation vs := (st_vs Sys Res). Local Notation iters := (st_iters Sys Res). Local Notation prep := (st_prep Sys Res).
Local Notation grid := (st_grid Sys Res). Local Notation ker := (st_ker Sys Res). Local Notation par := (st_par Sys Res).
Local Notation Es := (st_E Sys Res). Local Notation Ts := (st_T Sys Res).

(** ** Reachable states *)
Definition inv (s : St) : Prop :=
  cached (ker s) /\ grid_ok (grid s) /\ (forall v, vs s = Some v -> if vs_zeroth v then v = fresh else prep s <> None).
Definition kpnt_ok (p : Par) : Prop := par_kpnt Sys p <> Some 0%nat.
Lemma inv_new : forall p E T, inv (new p E T).
Proof. intros. split; [apply cached_none|]. split; [apply blank_ok|]. intros v H. injection H as <-. reflexivity. Qed.
Lemma inv_restart : forall s, inv s -> inv (restart Sys Res s).
Proof. intros s (A & B & C). split; [exact A|]. split; [exact B|]. intros v H. injection H as <-. reflexivity. Qed.
Lemma inv_set : forall s p, inv s -> inv (set_par Sys Res p s).
Proof. intros s p H. exact H. Qed.
Lemma inv_diag : forall a b s, inv s -> inv (diag Sys en am Res a b s).
Proof. intros a b s H. exact H. Qed.
Lemma make_any : forall k dlst g g' ch, k <> Some 0%nat -> grid_ok g -> make_Ek_grid k dlst g = Some (g', ch) -> grid_ok g'.
Proof.
  intros k dlst g g' ch Hk Hg H. destruct k as [n|]; [|discriminate]. destruct dlst as [|d dl].
  - simpl in H. injection H as <- <-. exact Hg.
  - destruct (make_cases n (d :: dl) g ltac:(discriminate) Hg) as (c & g1 & E & _ & _ & G). rewrite E in H. injection H as <- <-. apply G. congruence.
Qed.
Lemma prepare_ker : forall E mu temp k dlst ext g old g' p, cached old -> prepare L E mu temp k dlst ext g old = Some (g', p) -> cached (Some (p_ker p)).
Proof.
  intros E mu temp k dlst ext g old g' p Ho H. unfold prepare in H. destruct (make_Ek_grid k dlst g) as [[g1 ch]|]; [|discriminate].
  destruct (grid_ext _ _ _ _ _ _) as [[ex kl] kr]. injection H as <- <-. cbn [p_ker]. apply C57_cache. exact Ho.
Qed.
(** the branch that restarts because of a changed grid is never taken *)
Lemma begin_eq : forall s, inv s -> begin s =
  match vs s with
  | None => inl s
  | Some v =>
    if vs_zeroth v then
      match make_Ek_grid (par_kpnt Sys (par s)) (par_dlst Sys (par s)) (grid s) with
      | None => inl s
      | Some (g', _) =>
        if usable g' then
          match prepare L (Es s) (par_mu Sys (par s)) (par_temp Sys (par s)) (par_kpnt Sys (par s)) (par_dlst Sys (par s)) (par_ext Sys (par s)) (grid s) (ker s) with
          | Some (_, p) => inr (with_prep Sys Res (with_grid Sys Res s g') p)
          | None => inl (with_grid Sys Res s g')
          end
        else inl (with_grid Sys Res s g')
      end
    else inr s
  end.
Proof.
  intros s (_ & (NE & _) & HV). unfold VN2Run.begin. destruct (vs s) as [v|] eqn:V; [|reflexivity]. destruct (vs_zeroth v) eqn:Z; [|reflexivity].
  assert (NF : no_first Sys (par s) (grid s) = false). { unfold no_first. destruct (par_dlst Sys (par s)); [reflexivity|]. destruct (g_Ek (grid s)); congruence. }
  rewrite NF. destruct (make_Ek_grid _ _ _) as [[g' ch]|]; [|reflexivity].
  assert (NI : (niter Sys Res (with_grid Sys Res s g') =? -1)%Z = true). { unfold niter. cbn [st_vs with_grid]. rewrite V. specialize (HV v eq_refl). rewrite Z in HV. subst v. reflexivity. }
  rewrite NI. rewrite andb_false_r. reflexivity.
Qed.
Lemma iteration_zeroth : forall E T p v v', VN2Solve.iteration L nl E T linv p v = Some v' -> vs_zeroth v' = false.
Proof.
  intros E T p v v' H. unfold iteration, iterate in H. destruct (vs_zeroth v).
  - destruct (forallb _ _); [|discriminate]. injection H as <-. reflexivity.
  - injection H as <-. reflexivity.
Qed.
Lemma inv_step : forall s, kpnt_ok (par s) -> inv s -> inv (fst (step s)) /\ par (fst (step s)) = par s /\ Es (fst (step s)) = Es s /\ Ts (fst (step s)) = Ts s.
Proof.
  intros s HK HI. assert (HB := begin_eq s HI). destruct HI as (HC & HG & HV). unfold VN2Run.step. rewrite HB.
  destruct (vs s) as [v|] eqn:V.
  2:{ cbn [fst]. split; [|auto]. split; [exact HC|]. split; [exact HG|]. intros v H. rewrite V in H. discriminate. }
  assert (AFTER : forall s' p, inv s' -> prep s' = Some p -> vs s' = Some v ->
    let r := match VN2Solve.iteration L nl (Es s') (Ts s') linv p v with
      | Some v' => (with_vs Sys Res s' (Some v') [res (vs_niter v') (Es s') (Ts s') (par_mu Sys (par s')) (phi1_phi0 (g_Ek (grid s')) v') (e_phi1_phi0 (g_Ek (grid s')) v')], false)
      | None => (with_vs Sys Res s' None [], true) end in inv (fst r) /\ par (fst r) = par s' /\ Es (fst r) = Es s' /\ Ts (fst r) = Ts s').
  { intros s' p (A & B & C) P V'. cbn zeta. destruct (VN2Solve.iteration L nl (Es s') (Ts s') linv p v) as [v'|] eqn:I.
    - cbn [fst]. split; [|auto]. split; [exact A|]. split; [exact B|]. intros w W. injection W as <-. rewrite (iteration_zeroth _ _ _ _ _ I). cbn. now rewrite P.
    - cbn [fst]. split; [|auto]. split; [exact A|]. split; [exact B|]. intros w W. discriminate W. }
  destruct (vs_zeroth v) eqn:Z.
  - destruct (make_Ek_grid _ _ _) as [[g' ch]|] eqn:M.
    2:{ cbn [fst]. split; [|auto]. split; [exact HC|]. split; [exact HG|]. rewrite V. exact HV. }
    assert (GO := make_any _ _ _ _ _ HK HG M).
    assert (IG : inv (with_grid Sys Res s g')). { split; [exact HC|]. split; [exact GO|]. intros w W. cbn in W. rewrite V in W. apply HV. exact W. }
    destruct (usable g'); [|cbn [fst]; split; [exact IG|auto]].
    destruct (prepare _ _ _ _ _ _ _ _ _) as [[g2 p]|] eqn:P; [|cbn [fst]; split; [exact IG|auto]].
    cbn [st_prep with_prep st_vs with_grid]. rewrite V.
    apply (AFTER (with_prep Sys Res (with_grid Sys Res s g') p) p); [|reflexivity|exact V].
    split; [exact (prepare_ker _ _ _ _ _ _ _ _ _ _ HC P)|]. split; [exact GO|]. intros w W. cbn in W. rewrite V in W. injection W as <-. rewrite Z. specialize (HV v eq_refl). now rewrite Z in HV.
  - assert (HP := HV v eq_refl). rewrite Z in HP. destruct (prep s) as [p|] eqn:P; [|congruence]. rewrite V. apply (AFTER s p); auto. split; [exact HC|]. split; [exact HG|]. intros w W. rewrite V in W. rewrite P. apply HV. exact W.
Qed.
Lemma inv_steps : forall n s, kpnt_ok (par s) -> inv s -> inv (fst (steps n s)) /\ par (fst (steps n s)) = par s /\ Es (fst (steps n s)) = Es s /\ Ts (fst (steps n s)) = Ts s.
Proof.
  induction n as [|n IH]; intros s HK HI; [cbn; auto|]. cbn. destruct (inv_step s HK HI) as (A & B & C & D). destruct (step s) as [s' e]. cbn [fst] in *.
  destruct e; [cbn; auto|]. rewrite <- B in HK. destruct (IH s' HK A) as (A' & B' & C' & D'). rewrite B', C', D'. auto.
Qed.
Lemma inv_solve : forall a b c d n s, kpnt_ok (par s) -> inv s -> inv (fst (solve a b c d n s)) /\ par (fst (solve a b c d n s)) = par s.
Proof.
  intros a b c d n s HK HI. unfold VN2Run.solve. set (s1 := if d then restart Sys Res s else s).
  assert (I1 : inv s1 /\ par s1 = par s) by (unfold s1; destruct d; [split; [apply inv_restart; auto|reflexivity]|auto]). destruct I1 as (I1 & P1).
  destruct c; [|cbn; auto]. destruct n as [n|]; [|cbn; auto]. destruct (inv_steps n (diag Sys en am Res a b s1)) as (A & B & _); [cbn; rewrite P1; auto|exact I1|].
  split; [exact A|]. rewrite B. exact P1.
Qed.
(** histories in which kpnt is never zero *)
Definition plain (o : op Sys) : Prop := match o with Set_ _ p => kpnt_ok p | Solve _ _ _ _ _ _ => True end.
Lemma inv_run : forall h s, kpnt_ok (par s) -> inv s -> Forall plain h -> inv (run h s) /\ kpnt_ok (par (run h s)).
Proof.
  induction h as [|o h IH]; intros s HK HI HP; [cbn; auto|]. inversion HP; subst. cbn. destruct o as [p|a b c d n]; cbn.
  - apply IH; auto.
  - destruct (inv_solve a b c d n s HK HI) as (A & B). apply IH; auto. now rewrite B.
Qed.

(** ** A restarted calculation does not depend on the history *)
Definition same (a b : St) : Prop := par a = par b /\ Es a = Es b /\ Ts a = Ts b /\ vs a = vs b /\ iters a = iters b /\
  (forall v, vs a = Some v -> vs_zeroth v = false -> prep a = prep b /\ grid a = grid b).
Lemma usable_n : forall k dlst g g' ch, dlst <> [] -> grid_ok g -> make_Ek_grid k dlst g = Some (g', ch) -> usable g' = true -> exists n, k = Some n /\ (2 <= n)%nat.
Proof.
  intros k dlst g g' ch Hd Hg M U. destruct k as [n|]; [|discriminate]. exists n. split; [reflexivity|].
  destruct (make_cases n dlst g Hd Hg) as (c & g1 & E & _ & LL & _). rewrite E in M. injection M as <- <-. apply usable_two in U. lia.
Qed.
Lemma step_same : forall a b, inv a -> inv b -> par_dlst Sys (par a) <> [] -> same a b -> snd (step a) = snd (step b) /\ same (fst (step a)) (fst (step b)).
Proof.
  intros a b IA IB Hd (SP & SE & ST & SV & SI & SG). unfold VN2Run.step. rewrite (begin_eq a IA), (begin_eq b IB). rewrite <- SV, <- SP, <- SE.
  destruct (vs a) as [v|] eqn:V.
  2:{ split; [reflexivity|]. cbn [fst]. red. rewrite V, <- SV. repeat split; auto; intros; discriminate. }
  destruct IA as (CA & GA & _). destruct IB as (CB & GB & _).
  destruct (vs_zeroth v) eqn:Z.
  - destruct (make_Ek_grid (par_kpnt Sys (par a)) (par_dlst Sys (par a)) (grid a)) as [[ga ca]|] eqn:MA.
    2:{ assert (K : par_kpnt Sys (par a) = None).
        { destruct (par_kpnt Sys (par a)) as [n|]; [|reflexivity]. destruct (make_cases n _ _ Hd GA) as (c & g1 & E & _). rewrite E in MA. discriminate. }
        rewrite K. cbn [make_Ek_grid fst snd]. split; [reflexivity|]. red. rewrite V, <- SV. do 5 (split; [auto|]). intros w W W'. injection W as <-. congruence. }
    assert (KN : exists n, par_kpnt Sys (par a) = Some n). { destruct (par_kpnt Sys (par a)) as [n|]; [eauto|discriminate]. } destruct KN as (n & KN). rewrite KN in *.
    destruct (make_cases n _ _ Hd GA) as (c1 & g1 & E1 & G1 & L1 & _). rewrite E1 in MA. injection MA as <- <-.
    destruct (make_cases n _ _ Hd GB) as (c2 & g2 & E2 & G2 & L2 & _). rewrite E2.
    assert (SAME0 : forall x y, same (with_grid Sys Res a x) (with_grid Sys Res b y)).
    { intros x y. red. cbn. rewrite V, <- SV. do 5 (split; [auto|]). intros w W W'. injection W as <-. congruence. }
    destruct (le_lt_dec 2 n) as [Hn|Hn].
    + rewrite (G1 Hn), (G2 Hn). set (G := mkGrid _ _ _). destruct (usable G); [|cbn; split; [reflexivity|apply SAME0]].
      rewrite (prepare_any L _ _ _ n _ _ (grid a) (ker a) Hd GA CA Hn), (prepare_any L _ _ _ n _ _ (grid b) (ker b) Hd GB CB Hn).
      destruct (prepare _ _ _ _ _ _ _ _ _) as [[g3 p]|] eqn:P; [|cbn; split; [reflexivity|apply SAME0]].
      cbn [st_prep with_prep st_vs with_grid st_E st_T st_par st_grid]. rewrite V, <- SV, <- SE, <- ST, <- SP.
      destruct (VN2Solve.iteration _ _ _ _ _ _ _) as [v'|]; cbn [fst snd]; (split; [reflexivity|]); red; cbn; rewrite SI; repeat split; auto.
    + assert (UA : usable g1 = false) by (destruct (usable g1) eqn:U; [apply usable_two in U; lia|reflexivity]).
      assert (UB : usable g2 = false) by (destruct (usable g2) eqn:U; [apply usable_two in U; lia|reflexivity]).
      rewrite UA, UB. cbn. split; [reflexivity|apply SAME0].
  - destruct (SG v eq_refl Z) as (PP & GG). rewrite V, <- SV, <- PP, <- SE, <- ST, <- SP, <- GG. destruct (prep a) as [p|] eqn:P.
    + destruct (VN2Solve.iteration _ _ _ _ _ _ _) as [v'|]; cbn [fst snd]; (split; [reflexivity|]); red; cbn; rewrite SI, SP, ?P; repeat split; auto.
    + cbn. split; [reflexivity|]. red. rewrite V, <- SV, P. repeat split; auto.
Qed.
Lemma steps_same : forall n a b, kpnt_ok (par a) -> inv a -> inv b -> par_dlst Sys (par a) <> [] -> same a b -> snd (steps n a) = snd (steps n b) /\ same (fst (steps n a)) (fst (steps n b)).
Proof.
  induction n as [|n IH]; intros a b HK IA IB Hd S; [cbn; auto|]. cbn. destruct (step_same a b IA IB Hd S) as (E & S').
  destruct (inv_step a HK IA) as (IA' & PA & _). assert (HKB : kpnt_ok (par b)) by (destruct S as (S0 & _); rewrite <- S0; auto). destruct (inv_step b HKB IB) as (IB' & _).
  destruct (step a) as [a' ea]. destruct (step b) as [b' eb]. cbn [fst snd] in *. subst eb. destruct ea; [cbn; auto|]. apply IH; auto; rewrite PA; auto.
Qed.

(** A call with restartq=True gives what a new object with the present parameters gives: the same iterations, results and exceptions. *)
Theorem C60_repeatable : forall h p0 E0 T0 a b n, kpnt_ok p0 -> Forall plain h -> let s := run h (new p0 E0 T0) in par_dlst Sys (par s) <> [] ->
  let old := solve a b true true (Some n) s in let fresh_ := solve a b true true (Some n) (new (par s) (Es s) (Ts s)) in
  snd old = snd fresh_ /\ vs (fst old) = vs (fst fresh_) /\ iters (fst old) = iters (fst fresh_) /\
  (n <> 0%nat -> snd old = false -> prep (fst old) = prep (fst fresh_) /\ grid (fst old) = grid (fst fresh_)).
Proof.
  intros h p0 E0 T0 a b n HK HP s Hd. assert (I := inv_run h (new p0 E0 T0) HK (inv_new _ _ _) HP). fold s in I. destruct I as (I & K). cbn zeta. unfold VN2Run.solve.
  set (x := diag Sys en am Res a b (restart Sys Res s)). set (y := diag Sys en am Res a b (restart Sys Res (new (par s) (Es s) (Ts s)))).
  assert (IX : inv x) by (apply inv_diag, inv_restart; auto). assert (IY : inv y) by (apply inv_diag, inv_restart, inv_new).
  assert (S : same x y). { red. cbn. do 5 (split; [reflexivity|]). intros v V Z. injection V as <-. discriminate Z. }
  destruct (steps_same n x y K IX IY Hd S) as (E & S'). split; [exact E|]. destruct S' as (_ & _ & _ & V & R & G). split; [exact V|]. split; [exact R|].
  intros Hn Hok. assert (Z : exists v, vs (fst (steps n x)) = Some v /\ vs_zeroth v = false).
  { clear - Hn Hok IX K. destruct n as [|n]; [congruence|]. revert Hok. change (par s) with (par x) in K. clear Hn. revert K IX. generalize x as s0. clear x.
    assert (ONE : forall s0, inv s0 -> snd (step s0) = false -> exists v, vs (fst (step s0)) = Some v /\ vs_zeroth v = false).
    { intros s0 I0. unfold VN2Run.step. destruct (begin s0) as [|s1]; [discriminate|]. destruct (prep s1); [|discriminate]. destruct (vs s1); [|discriminate].
      destruct (VN2Solve.iteration _ _ _ _ _ _ _) as [v'|] eqn:I; [|discriminate]. intros _. cbn. exists v'. split; [reflexivity|]. exact (iteration_zeroth _ _ _ _ _ I). }
    assert (ALL : forall m s0, kpnt_ok (par s0) -> inv s0 -> (exists v, vs s0 = Some v /\ vs_zeroth v = false) -> snd (steps m s0) = false -> exists v, vs (fst (steps m s0)) = Some v /\ vs_zeroth v = false).
    { induction m as [|m IH]; intros s0 K0 I0 V0; cbn; [auto|]. destruct (inv_step s0 K0 I0) as (I1 & P1 & _). specialize (ONE s0 I0). destruct (step s0) as [s1 e]. cbn [fst snd] in *. destruct e; [discriminate|]. intros H. apply IH; auto. now rewrite P1. }
    intros s0 K0 I0. cbn. destruct (inv_step s0 K0 I0) as (I1 & P1 & _). specialize (ONE s0 I0). destruct (step s0) as [s1 e]. cbn [fst snd] in *. destruct e; [discriminate|]. intros H. apply ALL; auto. now rewrite P1. }
  destruct Z as (v & V1 & V2). exact (G v V1 V2).
Qed.

(** ** What is calculated *)
(** the energy integrals (C58) of the whole table, and of the table times the energy *)
Definition whole (Ekg : list R) (w : VS) (l cb : nat) (j : Z) : Cr := phi1_int Ekg (fun k => vs_phi w k l (cb, j)).
Definition whole_e (Ekg : list R) (w : VS) (l cb : nat) (j : Z) : Cr := e_phi1_int Ekg (fun k => vs_phi w k l (cb, j)).
(** the results of the first [n] iterations: item [i] is that of [i + 1] iterations of the equations prepared for the parameters *)
Definition results (E : nat -> R) (T : nat -> nat -> nat -> Cr) (mu : nat -> R) (Ekg : list R) (p : Prep) (n : nat) (v : option VS) (l : list Res) : Prop :=
  VN2Solve.iterations L nl E T linv p n fresh = v /\ length l = n /\
  forall i, (i < n)%nat -> exists w, VN2Solve.iterations L nl E T linv p (S i) fresh = Some w /\
    nth_error l i = Some (res (vs_niter w) E T mu (whole Ekg w) (whole_e Ekg w)).
Lemma results_snoc : forall E T mu Ekg p n v w l, results E T mu Ekg p n (Some v) l -> VN2Solve.iteration L nl E T linv p v = Some w ->
  results E T mu Ekg p (S n) (Some w) (l ++ [res (vs_niter w) E T mu (whole Ekg w) (whole_e Ekg w)]).
Proof.
  intros E T mu Ekg p n v w l (A & B & C) H. assert (N : VN2Solve.iterations L nl E T linv p (S n) fresh = Some w) by (rewrite iterations_snoc, A; exact H).
  split; [exact N|]. split; [rewrite app_length, B; simpl; lia|]. intros i Hi. destruct (Nat.eq_dec i n) as [->|D].
  - exists w. split; [exact N|]. rewrite nth_error_app2 by lia. rewrite B, Nat.sub_diag. reflexivity.
  - destruct (C i ltac:(lia)) as (u & U1 & U2). exists u. split; [exact U1|]. rewrite nth_error_app1 by lia. exact U2.
Qed.
Lemma step_later : forall s v p, vs s = Some v -> vs_zeroth v = false -> prep s = Some p -> step s =
  match VN2Solve.iteration L nl (Es s) (Ts s) linv p v with
  | None => (with_vs Sys Res s None [], true)
  | Some w => (with_vs Sys Res s (Some w) [res (vs_niter w) (Es s) (Ts s) (par_mu Sys (par s)) (phi1_phi0 (g_Ek (grid s)) w) (e_phi1_phi0 (g_Ek (grid s)) w)], false)
  end.
Proof. intros s v p V Z P. unfold VN2Run.step, VN2Run.begin. rewrite V, Z, P, V. reflexivity. Qed.
Lemma iteration_later : forall E T p v, vs_zeroth v = false -> VN2Solve.iteration L nl E T linv p v <> None.
Proof. intros E T p v Z. unfold VN2Solve.iteration, iterate. rewrite Z. discriminate. Qed.
Lemma steps_later : forall m n s v p, vs s = Some v -> vs_zeroth v = false -> prep s = Some p ->
  results (Es s) (Ts s) (par_mu Sys (par s)) (g_Ek (grid s)) p n (Some v) (iters s) ->
  snd (steps m s) = false /\ prep (fst (steps m s)) = Some p /\ grid (fst (steps m s)) = grid s /\
  results (Es s) (Ts s) (par_mu Sys (par s)) (g_Ek (grid s)) p (n + m) (vs (fst (steps m s))) (iters (fst (steps m s))).
Proof.
  induction m as [|m IH]; intros n s v p V Z P H.
  - cbn. rewrite Nat.add_0_r, V. auto.
  - cbn [VN2Run.steps]. rewrite (step_later s v p V Z P). destruct (VN2Solve.iteration L nl (Es s) (Ts s) linv p v) as [w|] eqn:I; [|exfalso; exact (iteration_later _ _ _ _ Z I)].
    set (s' := with_vs _ _ _ _ _). destruct (IH (S n) s' w p eq_refl (iteration_zeroth _ _ _ _ _ I) P) as (A & B & C & D).
    { cbn. apply (results_snoc _ _ _ _ _ _ v); auto. }
    split; [exact A|]. split; [exact B|]. split; [exact C|]. rewrite <- Nat.add_succ_comm. exact D.
Qed.
(** After any history, solve(niter=n) with n > 0 succeeds exactly if kpnt >= 2, the band is not a point and the local kernels are
    invertible; then iters holds the results of 1, ..., n iterations for the present parameters. *)
Theorem C60_solve : forall h p0 E0 T0 (a b : bool) n, kpnt_ok p0 -> Forall plain h -> let s := run h (new p0 E0 T0) in let q := par s in par_dlst Sys q <> [] ->
  let E := if a then en (par_sys Sys q) else Es s in let T := if a && b then am (par_sys Sys q) else Ts s in
  let '(s', raised) := solve a b true true (Some (S n)) s in
  let prepared := fun (g : Grid) (p : Prep) => prepare L E (par_mu Sys q) (par_temp Sys q) (par_kpnt Sys q) (par_dlst Sys q) (par_ext Sys q) blank None = Some (g, p) in
  (raised = false <-> exists g p v, prepared g p /\ (2 <= length (g_Ek g))%nat /\ fst (band (par_dlst Sys q)) <> snd (band (par_dlst Sys q)) /\
     VN2Solve.iteration L nl E T linv p fresh = Some v) /\
  (raised = false -> exists g p, prepared g p /\ prep s' = Some p /\ grid s' = g /\ results E T (par_mu Sys q) (g_Ek g) p (S n) (vs s') (iters s')).
Proof.
  intros h p0 E0 T0 a b n HK HP s q Hd E T. assert (I := inv_run h (new p0 E0 T0) HK (inv_new _ _ _) HP). fold s in I. destruct I as (I & K). cbn zeta.
  unfold VN2Run.solve. set (x := diag Sys en am Res a b (restart Sys Res s)).
  assert (IX : inv x) by (apply inv_diag, inv_restart; auto). destruct IX as (CX & GX & _). assert (IX : inv x) by (apply inv_diag, inv_restart; auto).
  cbn [VN2Run.steps]. unfold VN2Run.step at 1. rewrite (begin_eq x IX). change (vs x) with (Some fresh). cbn [vs_zeroth fresh].
  change (par x) with q. change (Es x) with E. change (Ts x) with T.
  destruct (par_kpnt Sys q) as [kp|] eqn:KP.
  2:{ cbn. split; [|discriminate]. split; [discriminate|]. intros (g & p & v & X & _). discriminate. }
  destruct (make_cases kp _ _ Hd GX) as (ch & g' & M & MG & ML & _). rewrite M.
  assert (BL : forall g p, prepare L E (par_mu Sys q) (par_temp Sys q) (Some kp) (par_dlst Sys q) (par_ext Sys q) blank None = Some (g, p) -> length (g_Ek g) = kp /\ ((2 <= kp)%nat -> g = g')).
  { intros g p X. unfold prepare in X. destruct (make_cases kp _ _ Hd blank_ok) as (c2 & g2 & M2 & MG2 & ML2 & _). rewrite M2 in X. destruct (grid_ext _ _ _ _ _ _) as [[ex kl] kr]. injection X as <- _.
    split; [exact ML2|]. intros H2. now rewrite (MG H2), (MG2 H2). }
  assert (UU : usable g' = true <-> (2 <= kp)%nat /\ fst (band (par_dlst Sys q)) <> snd (band (par_dlst Sys q))).
  { destruct (le_lt_dec 2 kp) as [H2|H2].
    - rewrite (MG H2). set (da := fst (band (par_dlst Sys q))). set (db := snd (band (par_dlst Sys q))). unfold usable. cbn [g_Ek].
      destruct kp as [|[|k]]; [lia|lia|]. unfold linspace. cbn [seq map]. set (N := INR (S (S k) - 1)).
      assert (0 < N) by (unfold N; apply lt_0_INR; lia).
      destruct (Req_EM_T _ _) as [Q|Q].
      + split; [discriminate|]. intros (_ & D). exfalso. apply D. simpl (INR 0) in Q. simpl (INR 1) in Q. assert ((db - da) / N = 0) by lra. assert (X : (db - da) / N * N = 0) by (rewrite H0; ring). unfold Rdiv in X. rewrite Rmult_assoc, Rinv_l in X by lra. lra.
      + split; [|reflexivity]. intros _. split; [lia|]. intros D. apply Q. rewrite D. simpl (INR 0). simpl (INR 1). unfold Rdiv. ring.
    - split; [intros U; apply usable_two in U; lia|lia]. }
  destruct (usable g') eqn:U.
  2:{ cbn. split; [|discriminate]. split; [discriminate|]. intros (g & p & v & X & L2 & D & _). destruct (BL g p X) as (B1 & _). assert (false = true) by (apply UU; split; [lia|exact D]). congruence. }
  destruct (proj1 UU eq_refl) as (H2 & D). rewrite (prepare_any L _ _ _ kp _ _ (grid x) (ker x) Hd GX CX H2).
  destruct (prepare L E (par_mu Sys q) (par_temp Sys q) (Some kp) (par_dlst Sys q) (par_ext Sys q) blank None) as [[g3 p]|] eqn:P.
  2:{ cbn. split; [|discriminate]. split; [discriminate|]. intros (g & p & v & X & _). discriminate. }
  destruct (BL g3 p eq_refl) as (B1 & B2). specialize (B2 H2). subst g3. cbn [st_prep with_prep st_vs with_grid st_E st_T st_par st_grid]. change (vs x) with (Some fresh). change (Es x) with E. change (Ts x) with T. change (par x) with q.
  cbv beta iota. destruct (VN2Solve.iteration L nl E T linv p fresh) as [w|] eqn:W.
  2:{ cbn. split; [|discriminate]. split; [discriminate|]. intros (g & p' & v & X & _ & _ & Y). injection X as <- <-. congruence. }
  set (s1 := with_vs _ _ _ _ _).
  assert (R1 : results (Es s1) (Ts s1) (par_mu Sys (par s1)) (g_Ek (grid s1)) p 1 (Some w) (iters s1)).
  { change (Es s1) with E. change (Ts s1) with T. split; [cbn [VN2Solve.iterations]; now rewrite W|]. split; [reflexivity|]. intros i Hi. assert (i = 0%nat) by lia. subst i. exists w. split; [cbn [VN2Solve.iterations]; now rewrite W|reflexivity]. }
  destruct (steps_later n 1 s1 w p eq_refl (iteration_zeroth _ _ _ _ _ W) eq_refl R1) as (A1 & A2 & A3 & A4).
  destruct (steps n s1) as [s' e]. cbn [fst snd] in *. subst e. split.
  - split; [|reflexivity]. intros _. exists g', p, w. rewrite B1. auto.
  - intros _. exists g', p. auto.
Qed.

(** ** Continuing *)
Lemma steps_add : forall n m s, steps (n + m) s = let '(s', e) := steps n s in if e then (s', true) else steps m s'.
Proof.
  induction n as [|n IH]; intros m s; [reflexivity|]. cbn. destruct (step s) as [s1 e]. destruct e; [reflexivity|]. apply IH.
Qed.
Lemma diag_id : forall s a b, (a = false \/ Es s = en (par_sys Sys (par s)) /\ Ts s = am (par_sys Sys (par s))) -> diag Sys en am Res a b s = s.
Proof. intros [q E T g k p v l] a b H. unfold diag. cbn in *. destruct H as [->|(-> & ->)]; [reflexivity|]. destruct a, b; reflexivity. Qed.
(** solve(niter=n) and solve(niter=m, restartq=False) are solve(niter=n+m): the same tables, results and exceptions *)
Theorem C60_continue : forall s a b a' b' c n m, kpnt_ok (par s) -> inv s -> a' = false \/ a = true /\ b = true ->
  let s1 := fst (solve a b true c (Some n) s) in
  snd (solve a b true c (Some n) s) = false -> solve a' b' true false (Some m) s1 = solve a b true c (Some (n + m)%nat) s.
Proof.
  intros s a b a' b' c n m HK HI HA. cbn zeta. unfold VN2Run.solve. set (x := diag Sys en am Res a b _).
  assert (IX : inv x /\ par x = par s) by (unfold x; destruct c; split; [apply inv_diag, inv_restart; auto|reflexivity|apply inv_diag; auto|reflexivity]). destruct IX as (IX & PX).
  destruct (inv_steps n x) as (_ & A & B & C); [now rewrite PX|exact IX|]. rewrite steps_add. destruct (steps n x) as [s1 e]. cbn [fst snd] in *. intros ->.
  rewrite diag_id; [reflexivity|]. destruct HA as [->|(-> & ->)]; [now left|right]. rewrite A, B, C. split; reflexivity.
Qed.
(** every reachable state qualifies *)
Corollary C60_continue_reachable : forall h p0 E0 T0 a b a' b' c n m, kpnt_ok p0 -> Forall plain h -> let s := run h (new p0 E0 T0) in
  a' = false \/ a = true /\ b = true -> snd (solve a b true c (Some n) s) = false ->
  solve a' b' true false (Some m) (fst (solve a b true c (Some n) s)) = solve a b true c (Some (n + m)%nat) s.
Proof.
  intros h p0 E0 T0 a b a' b' c n m HK HP s HA H. destruct (inv_run h (new p0 E0 T0) HK (inv_new _ _ _) HP) as (I & K). now apply C60_continue.
Qed.
(** Once an iteration was done, a continued calculation ignores new values of kpnt, dlst, ext_fct, tlst and (except in the results derived
    from the tables) mulst. *)
Theorem C60_continue_ignores : forall s v q a b m, vs s = Some v -> vs_zeroth v = false -> par_sys Sys q = par_sys Sys (par s) ->
  let x := solve a b true false (Some m) s in let y := solve a b true false (Some m) (set_par Sys Res q s) in
  snd x = snd y /\ vs (fst x) = vs (fst y) /\ grid (fst x) = grid (fst y) /\ prep (fst x) = prep (fst y) /\
  (par_mu Sys q = par_mu Sys (par s) -> iters (fst x) = iters (fst y)).
Proof.
  intros s v q a b m V Z SY. cbn zeta. unfold VN2Run.solve.
  assert (G : forall m x y v, Es x = Es y -> Ts x = Ts y -> vs x = Some v -> vs y = Some v -> vs_zeroth v = false -> grid x = grid y -> prep x = prep y ->
     (par_mu Sys q = par_mu Sys (par s) -> iters x = iters y) -> par_mu Sys (par x) = par_mu Sys (par s) -> par_mu Sys (par y) = par_mu Sys q ->
     snd (steps m x) = snd (steps m y) /\ vs (fst (steps m x)) = vs (fst (steps m y)) /\ grid (fst (steps m x)) = grid (fst (steps m y)) /\ prep (fst (steps m x)) = prep (fst (steps m y)) /\
     (par_mu Sys q = par_mu Sys (par s) -> iters (fst (steps m x)) = iters (fst (steps m y)))).
  { clear. induction m as [|m IH]; intros x y v E T V1 V2 Z G P It MX MY.
    - cbn. rewrite V1, V2. auto.
    - cbn [VN2Run.steps]. destruct (prep x) as [p|] eqn:PX.
      + rewrite (step_later x v p V1 Z PX), (step_later y v p V2 Z (eq_sym P)). rewrite <- E, <- T, <- G.
        destruct (VN2Solve.iteration _ _ _ _ _ _ _) as [w|] eqn:W; [|exfalso; exact (iteration_later _ _ _ _ Z W)].
        apply (IH _ _ w); auto; [exact (iteration_zeroth _ _ _ _ _ W)|cbn; now rewrite PX|]. intros Q. cbn. rewrite It, MX, MY, Q by auto. reflexivity.
      + assert (SX : step x = (x, true)) by (unfold VN2Run.step, VN2Run.begin; now rewrite V1, Z, PX). assert (SY : step y = (y, true)) by (unfold VN2Run.step, VN2Run.begin; now rewrite V2, Z, <- P).
        rewrite SX, SY. cbn. rewrite V1, V2, PX, P. auto. }
  apply (G m _ _ v); auto; cbn; now rewrite ?SY.
Qed.
End Run.

(** ** Examples and what is false *)
Definition w_par (k : nat) : Par unit := mkPar unit (Some k) [(-1, 1); (-1, 1)] (11 / 10) (fun _ => 0) (fun _ => 1) tt.
Definition w_res (n : Z) (E : nat -> R) (T : nat -> nat -> nat -> Cr) (mu : nat -> R) (P Q : nat -> nat -> Z -> Cr) : Z := n.
Definition w_solve := solve v_L 2 w_inv unit (fun _ => w_E) (fun _ => w_T) Z w_res.
Definition w_run := run v_L 2 w_inv unit (fun _ => w_E) (fun _ => w_T) Z w_res.
Definition w_new (k : nat) : St unit Z := new unit Z (w_par k) (fun _ => 0) (fun _ _ _ => r0).
Lemma w_band : band [(-1, 1); (-1, 1)] = (-1, 1).
Proof.
  unfold band. cbn [map fst snd concat app].
  assert (M1 : min_l (-1) [1; -1; 1] = -1). { unfold min_l. cbn [fold_left]. rewrite (Rmin_left (-1) 1), (Rmin_left (-1) (-1)), (Rmin_left (-1) 1) by lra. reflexivity. }
  assert (M2 : max_l (-1) [1; -1; 1] = 1). { unfold max_l. cbn [fold_left]. rewrite (Rmax_right (-1) 1), (Rmax_left 1 (-1)), (Rmax_left 1 1) by lra. reflexivity. }
  now rewrite M1, M2.
Qed.
(** two points, any number of iterations, after a history in which solve failed for a missing niter and for one grid point *)
Definition w_history : list (op unit) := [Solve unit true true true true None; Set_ unit (w_par 1); Solve unit true true true true (Some 2%nat); Set_ unit (w_par 2)].
Example C60_case : forall n h k, Forall (plain unit) h -> (k = 1 \/ k = 2)%nat -> par_dlst unit (st_par unit Z (w_run h (w_new k))) = [(-1, 1); (-1, 1)] ->
  st_par unit Z (w_run h (w_new k)) = w_par 2 ->
  let r := w_solve true true true true (Some (S n)) (w_run h (w_new k)) in
  snd r = false /\ length (st_iters unit Z (fst r)) = S n /\ g_Ek (st_grid unit Z (fst r)) = linspace (-1) 1 2.
Proof.
  intros n h k HP Hk DL PE. destruct w_prep as (g & p & WP & HE & KL & KR & LG & U). destruct (w_first g p WP HE KL KR LG U) as (v & I0).
  assert (KO : kpnt_ok unit (w_par k)) by (unfold kpnt_ok; cbn; destruct Hk; subst k; discriminate).
  assert (C := C60_solve v_L 2 w_inv unit (fun _ => w_E) (fun _ => w_T) Z w_res h (w_par k) (fun _ => 0) (fun _ _ _ => r0) true true n KO HP).
  cbv zeta in C. change (run v_L 2 w_inv unit (fun _ => w_E) (fun _ => w_T) Z w_res h (new unit Z (w_par k) (fun _ => 0) (fun _ _ _ => r0))) with (w_run h (w_new k)) in C.
  rewrite DL, PE in C. specialize (C ltac:(discriminate)). cbn zeta. unfold w_solve. destruct (solve _ _ _ _ _ _ _ _ _ _ _ _ _ _) as [s' e]. cbn [fst snd].
  destruct C as (C1 & C2). assert (e = false). { apply C1. exists g, p, v. rewrite w_band. split; [exact WP|]. split; [rewrite HE, linspace_length; lia|]. split; [cbn; lra|exact I0]. }
  split; [auto|]. destruct (C2 H) as (g2 & p2 & X & _ & G2 & (_ & LR & _)). split; [exact LR|]. rewrite G2. change (w_prepare = Some (g2, p2)) in X. rewrite WP in X. injection X as <- _. exact HE.
Qed.
Example C60_case_history : Forall (plain unit) w_history /\ st_par unit Z (w_run w_history (w_new 2)) = w_par 2.
Proof.
  split; [|]. { repeat constructor; unfold kpnt_ok; discriminate. }
  unfold w_run, run, w_history. cbn [fold_left do]. reflexivity.
Qed.
(** "Ek_grid has changed. Restarting the calculation.": with a new number of points a continued calculation goes on with the old grid. *)
Theorem C60_new_grid_refuted : exists L nl linv Sys (en : Sys -> nat -> R) am Res res p q E T,
  let s := fst (solve L nl linv Sys en am Res res true true true true (Some 1%nat) (new Sys Res p E T)) in
  let r := solve L nl linv Sys en am Res res true true true false (Some 1%nat) (set_par Sys Res q s) in
  par_kpnt Sys q = Some 3%nat /\ snd r = false /\ length (g_Ek (st_grid Sys Res (fst r))) = 2%nat /\ length (st_iters Sys Res (fst r)) = 2%nat.
Proof.
  exists v_L, 2%nat, w_inv, unit, (fun _ => w_E), (fun _ => w_T), Z, w_res, (w_par 2), (w_par 3), (fun _ => 0), (fun _ _ _ => r0). cbn zeta.
  change (new unit Z (w_par 2) (fun _ => 0) (fun _ _ _ => r0)) with (w_run [] (w_new 2)).
  destruct (C60_case 0 [] 2 (Forall_nil _) (or_intror eq_refl) eq_refl eq_refl) as (A & B & C).
  destruct (C60_case 1 [] 2 (Forall_nil _) (or_intror eq_refl) eq_refl eq_refl) as (A1 & B1 & C1).
  assert (K : kpnt_ok unit (w_par 2)) by discriminate.
  assert (CT := C60_continue_reachable v_L 2 w_inv unit (fun _ => w_E) (fun _ => w_T) Z w_res [] (w_par 2) (fun _ => 0) (fun _ _ _ => r0) true true true true true 1 1 K (Forall_nil _) (or_intror (Logic.conj eq_refl eq_refl)) A).
  change (solve v_L 2 w_inv unit (fun _ => w_E) (fun _ => w_T) Z w_res true true true true (Some 1%nat) (w_run [] (w_new 2))) with (w_solve true true true true (Some 1%nat) (w_run [] (w_new 2))).
  change (w_solve true true true false (Some 1%nat) (fst (w_solve true true true true (Some 1%nat) (w_run [] (w_new 2)))) = w_solve true true true true (Some 2%nat) (w_run [] (w_new 2))) in CT.
  assert (V : exists v, st_vs unit Z (fst (w_solve true true true true (Some 1%nat) (w_run [] (w_new 2)))) = Some v /\ vs_zeroth v = false /\ st_par unit Z (fst (w_solve true true true true (Some 1%nat) (w_run [] (w_new 2)))) = w_par 2).
  { assert (CS := C60_solve v_L 2 w_inv unit (fun _ => w_E) (fun _ => w_T) Z w_res [] (w_par 2) (fun _ => 0) (fun _ _ _ => r0) true true 0 K (Forall_nil _) ltac:(discriminate)).
    destruct (inv_solve v_L 2 w_inv unit (fun _ => w_E) (fun _ => w_T) Z w_res true true true true (Some 1%nat) (w_new 2) K (inv_new _ _ _ _ _)) as (_ & PP).
    change (solve v_L 2 w_inv unit (fun _ => w_E) (fun _ => w_T) Z w_res true true true true (Some 1%nat) (w_new 2)) with (w_solve true true true true (Some 1%nat) (w_run [] (w_new 2))) in PP.
    change (solve v_L 2 w_inv unit (fun _ => w_E) (fun _ => w_T) Z w_res true true true true (Some 1%nat) (run v_L 2 w_inv unit (fun _ => w_E) (fun _ => w_T) Z w_res [] (new unit Z (w_par 2) (fun _ => 0) (fun _ _ _ => r0)))) with (w_solve true true true true (Some 1%nat) (w_run [] (w_new 2))) in CS.
    destruct (w_solve true true true true (Some 1%nat) (w_run [] (w_new 2))) as [s' e]. cbn [fst snd] in *. destruct CS as (_ & CS). destruct (CS A) as (g & p & _ & _ & _ & (R1 & _ & R3)).
    destruct (R3 0%nat ltac:(lia)) as (w & W & _). exists w. split; [congruence|]. split; [|exact PP]. cbn [VN2Solve.iterations] in W.
    destruct (VN2Solve.iteration _ _ _ _ _ _ _) as [w'|] eqn:I; [|discriminate]. injection W as <-. exact (iteration_zeroth _ _ _ _ _ _ _ _ I). }
  destruct V as (v & V1 & V2 & V3).
  destruct (C60_continue_ignores v_L 2 w_inv unit (fun _ => w_E) (fun _ => w_T) Z w_res _ v (w_par 3) true true 1 V1 V2) as (X1 & _ & X3 & _ & X5); [now rewrite V3|].
  specialize (X5 ltac:(now rewrite V3)).
  match type of X1 with snd ?t = _ => change t with (w_solve true true true false (Some 1%nat) (fst (w_solve true true true true (Some 1%nat) (w_run [] (w_new 2))))) in X1, X3, X5 end.
  rewrite CT in X1, X3, X5. split; [reflexivity|]. split; [rewrite <- X1; exact A1|]. split; [rewrite <- X3, C1; apply linspace_length|]. rewrite <- X5. exact B1.
Qed.
(** After kpnt = 0 the grid is empty, and solve raises for every later kpnt, too. *)
Theorem C60_kpnt_zero_refuted : exists L nl linv Sys (en : Sys -> nat -> R) am Res res p q E T,
  let s := fst (solve L nl linv Sys en am Res res true true true true (Some 1%nat) (new Sys Res q E T)) in
  snd (solve L nl linv Sys en am Res res true true true true (Some 1%nat) (new Sys Res p E T)) = false /\
  snd (solve L nl linv Sys en am Res res true true true true (Some 1%nat) (set_par Sys Res p s)) = true.
Proof.
  exists v_L, 2%nat, w_inv, unit, (fun _ => w_E), (fun _ => w_T), Z, w_res, (w_par 2), (w_par 0), (fun _ => 0), (fun _ _ _ => r0). cbn zeta. split.
  - exact (proj1 (C60_case 0 [] 2 (Forall_nil _) (or_intror eq_refl) eq_refl eq_refl)).
  - assert (G : g_Ek (st_grid unit Z (fst (solve v_L 2 w_inv unit (fun _ => w_E) (fun _ => w_T) Z w_res true true true true (Some 1%nat) (new unit Z (w_par 0) (fun _ => 0) (fun _ _ _ => r0))))) = []).
    { unfold solve. cbn [steps]. unfold step. rewrite begin_eq by (apply inv_diag, inv_restart, inv_new). cbn [st_vs diag restart vs_zeroth fresh].
      destruct (make_cases 0 [(-1, 1); (-1, 1)] blank ltac:(discriminate) blank_ok) as (ch & g & M & _ & LG & _).
      match goal with |- context [make_Ek_grid ?k ?d ?g0] => change (make_Ek_grid k d g0) with (make_Ek_grid (Some 0%nat) [(-1, 1); (-1, 1)] blank) end. rewrite M.
      apply length_zero_iff_nil in LG. unfold usable. rewrite LG. exact LG. }
    set (s := fst _) in *. unfold solve. cbn [steps]. unfold step, begin. cbn [st_vs diag restart vs_zeroth fresh].
    assert (NF : no_first unit (w_par 2) (st_grid unit Z s) = true) by (unfold no_first; now rewrite G).
    match goal with |- context [no_first unit ?a ?b] => change (no_first unit a b) with (no_first unit (w_par 2) (st_grid unit Z s)) end. rewrite NF. reflexivity.
Qed.
Print Assumptions C60_repeatable.
Print Assumptions C60_solve.
Print Assumptions C60_continue_reachable.
Print Assumptions C60_continue_ignores.
Print Assumptions C60_new_grid_refuted.
Print Assumptions C60_kpnt_zero_refuted.
