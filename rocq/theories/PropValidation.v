(** Property C37: option validation. *)
From Coq Require Import String Ascii List ZArith Bool QArith Lia.
From Verif Require Import Validation.
Import ListNotations.
Open Scope string_scope.

(** Specification: what the documentation allows. *)
Definition allowed_kerntype (s : string) : Prop :=
  In s ["Pauli"; "Lindblad"; "Redfield"; "1vN"; "2vN"; "RTD";
        "pyPauli"; "pyLindblad"; "pyRedfield"; "py1vN"; "py2vN"; "pyRTD"].
Definition is_RTD (s : string) : Prop := s = "RTD" \/ s = "pyRTD".
Definition is_2vN (s : string) : Prop := s = "2vN" \/ s = "py2vN".
(** the value is the number z *)
Definition is_number (v : PyVal) (z : Z) : Prop :=
  match v with
  | PInt y => y = z
  | PBool b => z = (if b then 1 else 0)%Z
  | PFloat q => (q == inject_Z z)%Q
  | _ => False
  end.
Definition allowed_itype (v : PyVal) (s : string) : Prop :=
  exists z, is_number v z /\ (is_RTD s -> z = 1%Z) /\ (~ is_RTD s -> (0 <= z <= 3)%Z).
Definition allowed_itype_ph (v : PyVal) : Prop := is_number v 0 \/ is_number v 2.
Definition allowed_mfreeq (s : string) (m : bool) : Prop := is_RTD s -> m = false.
Definition allowed_indexing (ix s : string) : Prop :=
  In ix ["Lin"; "charge"; "sz"; "ssq"] /\ (is_2vN s -> ix = "Lin" \/ ix = "charge") /\ (is_RTD s -> ix = "charge").
Definition allowed_symmetry (sym : option string) (s : string) : Prop := is_RTD s -> sym <> Some "spin".

Lemma str_in_iff : forall s l, str_in s l = true <-> In s l.
Proof.
  intros. unfold str_in. rewrite existsb_exists. split.
  - intros (x & Hx & E). apply String.eqb_eq in E. now subst.
  - intros H. exists s. split; auto. apply String.eqb_refl.
Qed.
Lemma rtd_iff : forall s, kt_in (KName s) ["RTD"; "pyRTD"] = true <-> is_RTD s.
Proof. intros. simpl. fold (str_in s ["RTD"; "pyRTD"]). change (str_in s ["RTD"; "pyRTD"] = true <-> is_RTD s).
  rewrite str_in_iff. unfold is_RTD. simpl. intuition. Qed.
Lemma rtd_iff' : forall s, kt_in (KName s) ["pyRTD"; "RTD"] = true <-> is_RTD s.
Proof. intros. change (str_in s ["pyRTD"; "RTD"] = true <-> is_RTD s).
  rewrite str_in_iff. unfold is_RTD. simpl. intuition. Qed.
Lemma vn2_iff : forall s, kt_in (KName s) ["py2vN"; "2vN"] = true <-> is_2vN s.
Proof. intros. change (str_in s ["py2vN"; "2vN"] = true <-> is_2vN s).
  rewrite str_in_iff. unfold is_2vN. simpl. intuition. Qed.
Lemma eqz_iff : forall v z, py_eqz v z = true <-> is_number v z.
Proof.
  intros [y|b|q|s|] z; simpl; try (split; [discriminate|tauto]).
  - apply Z.eqb_eq.
  - rewrite Z.eqb_eq. split; congruence.
  - apply Qeq_bool_iff.
Qed.
Lemma inz_iff : forall v l, py_inz v l = true <-> exists z, In z l /\ is_number v z.
Proof.
  intros. unfold py_inz. rewrite existsb_exists. split; intros (z & H & E); exists z; split; auto; now apply eqz_iff.
Qed.

(** *** C37, each validator *)
Theorem C37_kerntype : forall s,
  (exists r, validate_kerntype (KName s) = KName r /\ allowed_kerntype r) /\
  (allowed_kerntype s -> validate_kerntype (KName s) = KName s) /\
  validate_kerntype (validate_kerntype (KName s)) = validate_kerntype (KName s).
Proof.
  intros s. unfold validate_kerntype.
  assert (H : str_in s kerntypes = true <-> allowed_kerntype s).
  { rewrite str_in_iff. unfold kerntypes, allowed_kerntype. simpl. intuition. }
  destruct (str_in s kerntypes) eqn:E.
  - split; [|split]; auto.
    + exists s. split; auto. now apply H.
    + now rewrite E.
  - split; [|split].
    + exists "Pauli". split; auto. unfold allowed_kerntype. simpl. auto.
    + intros A. apply H in A. discriminate.
    + reflexivity.
Qed.
Print Assumptions C37_kerntype.

Theorem C37_itype : forall v s,
  allowed_itype (validate_itype v (KName s)) s /\
  (allowed_itype v s -> validate_itype v (KName s) = v) /\
  validate_itype (validate_itype v (KName s)) (KName s) = validate_itype v (KName s).
Proof.
  intros v s.
  assert (A : allowed_itype (validate_itype v (KName s)) s).
  { unfold validate_itype. destruct (kt_in (KName s) ["RTD"; "pyRTD"]) eqn:E; unfold negb at 1; cbv iota.
    - apply rtd_iff in E. destruct (py_eqz v 1) eqn:E1; simpl.
      + apply eqz_iff in E1. exists 1%Z. tauto.
      + exists 1%Z. simpl. tauto.
    - assert (~ is_RTD s) by (rewrite <- rtd_iff, E; discriminate).
      destruct (py_inz v [0; 1; 2; 3]%Z) eqn:E1; simpl.
      + apply inz_iff in E1. destruct E1 as (z & Hz & Hn). exists z. split; auto. split; [tauto|]. intros _. simpl in Hz. lia.
      + exists 0%Z. simpl. split; auto. split; [tauto|lia]. }
  assert (F : forall w, allowed_itype w s -> validate_itype w (KName s) = w).
  { intros w (z & Hn & H1 & H2). unfold validate_itype.
    destruct (kt_in (KName s) ["RTD"; "pyRTD"]) eqn:E; unfold negb at 1; cbv iota.
    - apply rtd_iff in E. rewrite (H1 E) in Hn. apply eqz_iff in Hn. now rewrite Hn.
    - assert (R : ~ is_RTD s) by (rewrite <- rtd_iff, E; discriminate). specialize (H2 R).
      assert (I : py_inz w [0; 1; 2; 3]%Z = true) by (apply inz_iff; exists z; split; auto; simpl; lia).
      now rewrite I. }
  split; auto.
Qed.
Print Assumptions C37_itype.

Theorem C37_itype_ph : forall v,
  allowed_itype_ph (validate_itype_ph v) /\ (allowed_itype_ph v -> validate_itype_ph v = v) /\
  validate_itype_ph (validate_itype_ph v) = validate_itype_ph v.
Proof.
  intros v.
  assert (F : forall w, allowed_itype_ph w -> validate_itype_ph w = w).
  { intros w H. unfold validate_itype_ph.
    assert (I : py_inz w [0; 2]%Z = true) by (apply inz_iff; destruct H; eexists; (split; [|eassumption]); simpl; auto).
    now rewrite I. }
  assert (A : allowed_itype_ph (validate_itype_ph v)).
  { unfold validate_itype_ph. destruct (py_inz v [0; 2]%Z) eqn:E; simpl; [|left; reflexivity].
    apply inz_iff in E. destruct E as (z & [<-|[<-|[]]] & H); [left|right]; auto. }
  auto.
Qed.
Print Assumptions C37_itype_ph.

Theorem C37_mfreeq : forall s m,
  allowed_mfreeq s (validate_mfreeq (KName s) m) /\ (allowed_mfreeq s m -> validate_mfreeq (KName s) m = m) /\
  validate_mfreeq (KName s) (validate_mfreeq (KName s) m) = validate_mfreeq (KName s) m.
Proof.
  intros s m. unfold validate_mfreeq, allowed_mfreeq. rewrite <- rtd_iff.
  destruct m, (kt_in (KName s) ["RTD"; "pyRTD"]); simpl; intuition; try discriminate; symmetry; auto.
Qed.
Print Assumptions C37_mfreeq.

Lemma indexing_fix : forall ix sym s, allowed_indexing ix s -> validate_indexing (Some ix) sym (KName s) = (ix, sym).
Proof.
  intros ix sym s (H1 & H2 & H3). unfold validate_indexing.
  apply str_in_iff in H1. rewrite H1. cbv beta iota zeta delta [negb].
  rewrite <- vn2_iff in H2. rewrite <- rtd_iff' in H3.
  destruct (kt_in (KName s) ["py2vN"; "2vN"]), (kt_in (KName s) ["pyRTD"; "RTD"]).
  - rewrite (H3 eq_refl). reflexivity.
  - destruct (H2 eq_refl) as [-> | ->]; reflexivity.
  - rewrite (H3 eq_refl). reflexivity.
  - rewrite !andb_false_r. reflexivity.
Qed.
Lemma indexing_allowed : forall o sym s, allowed_indexing (fst (validate_indexing o sym (KName s))) s.
Proof.
  intros o sym s. unfold validate_indexing.
  set (p := match o with None => _ | Some i => (i, sym) end). destruct p as [ix sy]. cbv zeta. cbn [fst].
  assert (G : forall i, In i ["Lin"; "charge"; "sz"; "ssq"] ->
    let i2 := if negb (str_in i ["Lin"; "charge"]) && kt_in (KName s) ["py2vN"; "2vN"] then "charge" else i in
    allowed_indexing (if negb (String.eqb i2 "charge") && kt_in (KName s) ["pyRTD"; "RTD"] then "charge" else i2) s).
  { intros i Hi i2. unfold allowed_indexing. rewrite <- rtd_iff', <- vn2_iff.
    destruct (kt_in (KName s) ["py2vN"; "2vN"]) eqn:E2, (kt_in (KName s) ["pyRTD"; "RTD"]) eqn:E3; unfold i2;
      rewrite ?andb_true_r, ?andb_false_r; simpl in Hi; destruct Hi as [<-|[<-|[<-|[<-|[]]]]]; simpl; intuition discriminate. }
  destruct (str_in ix ["Lin"; "charge"; "sz"; "ssq"]) eqn:E; cbn [negb].
  - apply (G ix). now apply str_in_iff.
  - apply (G "charge"). simpl. auto.
Qed.

Theorem C37_indexing : forall ix sym s,
  allowed_indexing (fst (validate_indexing ix sym (KName s))) s /\
  (forall i, ix = Some i -> allowed_indexing i s -> validate_indexing ix sym (KName s) = (i, sym)) /\
  (let '(i, y) := validate_indexing ix sym (KName s) in validate_indexing (Some i) y (KName s) = (i, y)) /\
  (ix = None -> allowed_symmetry (snd (validate_indexing ix sym (KName s))) s).
Proof.
  intros ix sym s. split; [apply indexing_allowed|]. split; [|split].
  - intros i -> H. now apply indexing_fix.
  - pose proof (indexing_allowed ix sym s) as H. destruct (validate_indexing ix sym (KName s)) as [i y].
    now apply indexing_fix.
  - intros ->. unfold allowed_symmetry. rewrite <- rtd_iff'. intros R. unfold validate_indexing. rewrite R, andb_true_r.
    destruct sym as [y|]; simpl.
    + destruct (String.eqb_spec y "spin"); simpl; [discriminate|]. congruence.
    + discriminate.
Qed.
Print Assumptions C37_indexing.

(** *** C37, the builder *)
(** A built system is consistent: the approach in use supports the options. *)
Definition consistent (b : Built) : Prop :=
  allowed_kerntype (bt_approach b) /\ allowed_itype (bt_itype b) (bt_approach b) /\
  allowed_indexing (bt_indexing b) (bt_approach b) /\ allowed_symmetry (bt_symmetry b) (bt_approach b) /\
  allowed_mfreeq (bt_approach b) (bt_mfreeq b).

Lemma approach_known : forall s, allowed_kerntype s -> approach_of base_globals (KName s) = Some s.
Proof.
  intros s H. unfold allowed_kerntype in H. simpl in H.
  repeat (destruct H as [<-|H]; [reflexivity|]). destruct H.
Qed.

Theorem C37_builder : forall s itype indexing symmetry mfreeq,
  (is_RTD s -> indexing = None \/ symmetry <> Some "spin") -> (is_RTD s -> mfreeq = false) ->
  exists b, build base_globals (mkOptions itype (KName s) indexing symmetry mfreeq) = Some b /\ consistent b /\
    (allowed_kerntype s -> bt_approach b = s) /\ (~ allowed_kerntype s -> bt_approach b = "Pauli") /\
    bt_mfreeq b = mfreeq.
Proof.
  intros s itype indexing symmetry mfreeq HS HM. unfold build, validate_data.
  cbn [op_itype op_kern op_indexing op_symmetry op_mfreeq].
  destruct (C37_kerntype s) as ((r & Er & Hr) & Hk & _). rewrite Er.
  assert (RS : (allowed_kerntype s /\ r = s) \/ (~ allowed_kerntype s /\ r = "Pauli")).
  { unfold validate_kerntype in Er. destruct (str_in s kerntypes) eqn:E.
    - left. injection Er as ->. auto.
    - right. injection Er as <-. split; auto. intros A. specialize (Hk A). unfold validate_kerntype in Hk. rewrite E in Hk.
      injection Hk as <-. apply (eq_true_false_abs _ (proj2 (str_in_iff "Pauli" kerntypes) (or_introl eq_refl))). exact E. }
  assert (RT : is_RTD r <-> is_RTD s).
  { destruct RS as [[_ ->]|[N ->]]; [tauto|]. unfold is_RTD. split.
    - intros [X|X]; discriminate X.
    - intros X. exfalso. apply N. unfold allowed_kerntype. simpl. destruct X; intuition. }
  pose proof (indexing_allowed indexing symmetry r) as HI.
  destruct (C37_indexing indexing symmetry r) as (_ & _ & _ & HY).
  assert (SY : allowed_symmetry (snd (validate_indexing indexing symmetry (KName r))) r).
  { intros R. destruct (HS (proj1 RT R)) as [->|N]; [now apply HY|].
    destruct indexing as [i|]; [exact N|]. now apply HY. }
  destruct (validate_indexing indexing symmetry (KName r)) as [ix sy] eqn:EV. cbn [op_kern op_indexing op_itype op_symmetry op_mfreeq].
  rewrite (approach_known r Hr). eexists. split; [reflexivity|].
  cbn [bt_approach bt_itype bt_indexing bt_symmetry bt_mfreeq].
  split; [|split; [|split]].
  - split; [exact Hr|]. split; [|split; [exact HI|split; [exact SY|]]].
    + destruct (C37_itype itype s) as ((z & Hz & H1 & H2) & _ & _). exists z. rewrite RT. auto.
    + intros R. cbn. apply HM. now apply RT.
  - intros A. destruct RS as [[_ ->]|[N _]]; tauto.
  - intros A. destruct RS as [[N _]|[_ ->]]; tauto.
  - reflexivity.
Qed.
Print Assumptions C37_builder.

(** Validating the validated options again changes nothing. *)
Theorem C37_builder_idempotent : forall s itype indexing symmetry mfreeq,
  let v := validate_data (mkOptions itype (KName s) indexing symmetry mfreeq) in validate_data v = v.
Proof.
  intros. unfold v, validate_data. cbn [op_itype op_kern op_indexing op_symmetry op_mfreeq].
  destruct (C37_kerntype s) as ((r & Er & Hr) & Hk & Hi). rewrite Er in *.
  destruct (C37_indexing indexing symmetry r) as (_ & _ & IX & _).
  destruct (validate_indexing indexing symmetry (KName r)) as [ix sy] eqn:EV.
  cbn [op_itype op_kern op_indexing op_symmetry op_mfreeq]. rewrite Hi, IX. f_equal.
  destruct (C37_itype itype s) as ((z & Hz & H1 & H2) & _ & _).
  apply (proj1 (proj2 (C37_itype _ r))). exists z. split; auto.
  unfold validate_kerntype in Er. destruct (str_in s kerntypes) eqn:E; injection Er as <-; [auto|].
  assert (N : ~ is_RTD s).
  { intros R. assert (A : allowed_kerntype s) by (unfold allowed_kerntype; simpl; destruct R; intuition).
    injection (Hk A) as <-. discriminate E. }
  split; [intros [X|X]; discriminate X|auto].
Qed.
Print Assumptions C37_builder_idempotent.

Example C37_case : build base_globals (mkOptions (PInt 7) (KName "py2vN") (Some "ssq") (Some "spin") true)
  = Some (mkBuilt "py2vN" (PInt 0) "charge" (Some "spin") true).
Proof. reflexivity. Qed.
Example C37_case_rtd : build base_globals (mkOptions (PInt 0) (KName "RTD") None (Some "spin") false)
  = Some (mkBuilt "RTD" (PInt 1) "charge" None false).
Proof. reflexivity. Qed.
Example C37_case_ssq : build base_globals (mkOptions (PBool true) (KName "Paul") None (Some "spin") false)
  = Some (mkBuilt "Pauli" (PBool true) "ssq" (Some "spin") false).
Proof. reflexivity. Qed.

(** The two hypotheses of C37_builder are needed: with an explicit indexing symmetry='spin' survives for RTD, and mfreeq is
    never validated. *)
Theorem C37_symmetry_refuted : exists b,
  build base_globals (mkOptions (PInt 1) (KName "RTD") (Some "charge") (Some "spin") false) = Some b /\ ~ consistent b.
Proof.
  eexists. split; [reflexivity|]. intros (_ & _ & _ & H & _). apply H; [left; reflexivity|reflexivity].
Qed.
Print Assumptions C37_symmetry_refuted.
Theorem C37_mfreeq_refuted : exists b,
  build base_globals (mkOptions (PInt 1) (KName "RTD") (Some "charge") None true) = Some b /\ ~ consistent b.
Proof.
  eexists. split; [reflexivity|]. intros (_ & _ & _ & _ & H). specialize (H (or_introl eq_refl)). discriminate H.
Qed.
Print Assumptions C37_mfreeq_refuted.
(** A kerntype given as a class is not validated at all. *)
Theorem C37_class_refuted : exists b,
  build base_globals (mkOptions (PInt 0) (KClass "RTD") (Some "ssq") None false) = Some b /\ ~ consistent b.
Proof.
  eexists. split; [reflexivity|]. intros (_ & _ & (_ & _ & H) & _). specialize (H (or_introl eq_refl)). discriminate H.
Qed.
Print Assumptions C37_class_refuted.
(** BuilderElPh validates with the same list but has no RTD approach: KeyError. *)
Theorem C37_elph_refuted : allowed_kerntype "RTD" /\
  build elph_globals (mkOptions (PInt 1) (KName "RTD") None None false) = None /\
  build elph_globals (mkOptions (PInt 1) (KName "pyRTD") None None false) = None.
Proof. repeat split. unfold allowed_kerntype. simpl. tauto. Qed.
Print Assumptions C37_elph_refuted.
(** Changing kerntype afterwards switches the approach and keeps the options. *)
Theorem C37_set_kerntype : forall b s, allowed_kerntype s ->
  set_kerntype base_globals b (KName s) = Some (mkBuilt s (bt_itype b) (bt_indexing b) (bt_symmetry b) (bt_mfreeq b)).
Proof.
  intros b s H. unfold set_kerntype. destruct (String.eqb_spec (bt_approach b) s) as [<-|_]; [now destruct b|].
  now rewrite (approach_known s H).
Qed.
Print Assumptions C37_set_kerntype.
(** Changing kerntype afterwards is not validated: a consistent system becomes inconsistent. *)
Theorem C37_set_kerntype_refuted : exists b b',
  build base_globals (mkOptions (PInt 0) (KName "Pauli") None (Some "spin") false) = Some b /\ consistent b /\
  set_kerntype base_globals b (KName "2vN") = Some b' /\ ~ consistent b' /\
  set_kerntype base_globals b (KName "Paul") = None.
Proof.
  eexists. eexists. split; [reflexivity|]. split; [|split; [reflexivity|split; [|reflexivity]]].
  - repeat split; cbn; unfold allowed_kerntype; simpl; try tauto.
    + exists 0%Z. unfold is_RTD. repeat split; try lia. intros [X|X]; discriminate X.
    + unfold is_2vN. intros [X|X]; discriminate X.
    + unfold is_RTD. intros [X|X]; discriminate X.
    + unfold allowed_symmetry, is_RTD. intros [X|X]; discriminate X.
  - intros (_ & _ & (_ & H & _) & _). destruct (H (or_introl eq_refl)) as [X|X]; discriminate X.
Qed.
Print Assumptions C37_set_kerntype_refuted.
