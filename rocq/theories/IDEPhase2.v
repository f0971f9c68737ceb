(** Phase II of the IDE solver: value propagation reaches a closed valuation
    under every schedule, and never exceeds any predicate closed under the
    propagation rules. *)
From Coq Require Import List Bool Permutation Lia.
From Verif Require Import Assoc TableModel TableProofs JumpFunctionsModel JumpFunctionsProofs
  IDESolverModel IDESpec IDEPhase1.
Import ListNotations.

Section P2.
  Context {N F D L EF : Type} `{EqDec N} `{EqDec F} `{EqDec D}.
  Variable G : icfg N F.
  Variable P : problem N F D L EF.
  Variable S0 : @seeds N D L.
  Variable U : list N.
  Variable J : jumpfns N D EF.
  Hypothesis LL : lattice_laws P.
  Hypothesis MONO : forall f x y, lle P x y -> lle P (apply P f x) (apply P f y).

  Notation lle := (lle P).
  Notation ap := (apply P).
  Notation vstate := (@vstate N D L).
  Notation val := (val P).
  Notation tab := (table N D L).

  (** the value transfers a task performs *)
  Definition actsStart (n : N) (d : D) : list (N * D * EF) :=
    flat_map (fun c => map (fun '(d', f) => (c, d', f)) (fwdl J d c))
             (getCallsFromWithin G (getFunctionOf G n)).
  Definition actsCall (n : N) (d : D) : list (N * D * EF) :=
    flat_map (fun callee =>
      flat_map (fun d' => map (fun sp => (sp, d', callEF P n d callee d')) (getStartPointsOf G callee))
        (callFF P n callee d)) (getCalleesOfCallAt G n).
  Definition startLike (n : N) : bool :=
    isStartPoint G n || (match afind n S0 with Some _ => true | None => false end) || mem n U.
  Definition acts (n : N) (d : D) : list (N * D * EF) :=
    (if startLike n then actsStart n d else []) ++ (if isCallSite G n then actsCall n d else []).

  Definition act1 (n : N) (d : D) (v : vstate) (a : N * D * EF) : vstate :=
    let '(n', d', f) := a in propagateValue P v n' d' (ap f (val (v_tab v) n d)).

  Lemma fold_left_flat_map {A B C} (f : C -> B -> C) (g : A -> list B) (l : list A) (c : C) :
    fold_left f (flat_map g l) c = fold_left (fun c a => fold_left f (g a) c) l c.
  Proof. revert c; induction l; intros; simpl; auto. rewrite fold_left_app. auto. Qed.
  Lemma fold_left_map {A B C} (f : C -> B -> C) (g : A -> B) (l : list A) (c : C) :
    fold_left f (map g l) c = fold_left (fun c a => f c (g a)) l c.
  Proof. revert c; induction l; intros; simpl; auto. Qed.
  Lemma fold_left_ext {A C} (f g : C -> A -> C) (l : list A) :
    (forall c a, f c a = g c a) -> forall c, fold_left f l c = fold_left g l c.
  Proof. intros E. induction l; intros; simpl; auto. rewrite E. auto. Qed.

  Lemma task_acts v n d :
    valuePropagationTask G P S0 U J v n d = fold_left (act1 n d) (acts n d) v.
  Proof.
    unfold valuePropagationTask, acts. rewrite fold_left_app.
    assert (E1 : forall v, propagateValueAtStart G P J v n d = fold_left (act1 n d) (actsStart n d) v).
    { intros v0. unfold propagateValueAtStart, actsStart. rewrite fold_left_flat_map.
      apply fold_left_ext. intros v1 c. unfold fwdl. destruct (jf_forward J d c) as [l|]; [|reflexivity].
      rewrite fold_left_map. apply fold_left_ext. intros v2 [d' f]. reflexivity. }
    assert (E2 : forall v, propagateValueAtCall G P v n d = fold_left (act1 n d) (actsCall n d) v).
    { intros v0. unfold propagateValueAtCall, actsCall. rewrite fold_left_flat_map.
      apply fold_left_ext. intros v1 callee. rewrite fold_left_flat_map.
      apply fold_left_ext. intros v2 d'. rewrite fold_left_map. reflexivity. }
    fold (startLike n).
    destruct (startLike n), (isCallSite G n); simpl; rewrite ?E2, ?E1; auto.
  Qed.

  Lemma val_insert (T : tab) n d l n' d' :
    val (t_insert T n d l) n' d' = if eq_dec (n', d') (n, d) then l else val T n' d'.
  Proof. unfold IDESolverModel.val. rewrite t_lookup_insert. destruct (eq_dec _ _); auto. Qed.

  (** *** growth *)
  Definition vle (T T' : tab) : Prop := forall n d, lle (val T n d) (val T' n d).

  Lemma vle_refl T : vle T T.
  Proof. intros n d. apply lle_refl; auto. Qed.
  Lemma vle_trans T1 T2 T3 : vle T1 T2 -> vle T2 T3 -> vle T1 T3.
  Proof. intros E1 E2 n d. eapply lle_trans; eauto. Qed.

  Definition closedAt (T : tab) n d : Prop :=
    forall n' d' f, In (n', d', f) (acts n d) -> lle (ap f (val T n d)) (val T n' d').

  (** every cell is pending or closed; [X] are cells that must be closed even
      though their value may be top (the seeds) *)
  Definition okCell (v : vstate) n d : Prop := In (n, d) (v_wl v) \/ closedAt (v_tab v) n d.
  Definition VInv (X : N -> D -> Prop) (v : vstate) : Prop :=
    forall n d, val (v_tab v) n d <> topElement P \/ X n d -> okCell v n d.

  Lemma propagateValue_spec v n d l (v' := propagateValue P v n d l) :
    (v' = v /\ lle l (val (v_tab v) n d)) \/
    (v_wl v' = (n, d) :: v_wl v /\
     v_tab v' = t_insert (v_tab v) n d (joinL P (val (v_tab v) n d) l) /\
     joinL P (val (v_tab v) n d) l <> val (v_tab v) n d).
  Proof.
    subst v'. unfold propagateValue. destruct (lEqb P _ _) eqn:E.
    - left. split; auto. apply (ll_eqb _ LL) in E. unfold IDESpec.lle. rewrite (ll_comm _ LL). auto.
    - right. simpl. repeat split; auto. intros E2. apply (ll_eqb _ LL) in E2. congruence.
  Qed.

  Lemma propagateValue_vle v n d l : vle (v_tab v) (v_tab (propagateValue P v n d l)).
  Proof.
    destruct (propagateValue_spec v n d l) as [[-> _]|[_ [-> _]]]; [apply vle_refl|].
    intros n' d'. rewrite val_insert. destruct (eq_dec _ _) as [E|]; [|apply lle_refl; auto].
    injection E; intros -> ->. apply lle_join_l; auto.
  Qed.

  Lemma propagateValue_wl v n d l x : In x (v_wl v) -> In x (v_wl (propagateValue P v n d l)).
  Proof. destruct (propagateValue_spec v n d l) as [[-> _]|[-> _]]; simpl; auto. Qed.

  Lemma propagateValue_ge v n d l : lle l (val (v_tab (propagateValue P v n d l)) n d).
  Proof.
    destruct (propagateValue_spec v n d l) as [[-> Hl]|[_ [-> _]]]; auto.
    rewrite val_insert. destruct (eq_dec _ _); [|congruence]. apply lle_join_r; auto.
  Qed.

  (** a value that changed is pending *)
  Lemma propagateValue_changed v n d l n' d' :
    val (v_tab (propagateValue P v n d l)) n' d' = val (v_tab v) n' d' \/
    In (n', d') (v_wl (propagateValue P v n d l)).
  Proof.
    destruct (propagateValue_spec v n d l) as [[-> _]|[Ew [Et _]]]; auto.
    rewrite Et, Ew, val_insert. destruct (eq_dec _ _) as [E|]; auto.
    injection E; intros -> ->. right; left; auto.
  Qed.

  Lemma closedAt_mono T T' n d : vle T T' -> val T' n d = val T n d -> closedAt T n d -> closedAt T' n d.
  Proof.
    intros Hle E Hc n' d' f Hin. rewrite E. eapply lle_trans; [exact LL|apply Hc; eauto|apply Hle].
  Qed.

  Lemma okCell_mono v v' n d :
    vle (v_tab v) (v_tab v') -> (forall x, In x (v_wl v) -> In x (v_wl v')) ->
    (val (v_tab v') n d = val (v_tab v) n d \/ In (n, d) (v_wl v')) ->
    okCell v n d -> okCell v' n d.
  Proof.
    intros Hle Hw [E|Hin] [Hi|Hc]; try (left; auto; fail).
    right. eapply closedAt_mono; eauto.
  Qed.

  (** running the transfers of one cell *)
  Lemma acts_run n d l : forall v,
    (forall a, In a l -> In a (acts n d)) ->
    let v' := fold_left (act1 n d) l v in
    vle (v_tab v) (v_tab v') /\
    (forall x, In x (v_wl v) -> In x (v_wl v')) /\
    (forall n1 d1, val (v_tab v') n1 d1 = val (v_tab v) n1 d1 \/ In (n1, d1) (v_wl v')) /\
    (In (n, d) (v_wl v') \/ forall n' d' f, In (n', d', f) l -> lle (ap f (val (v_tab v') n d)) (val (v_tab v') n' d')).
  Proof.
    induction l as [|[[n0 d0] f0] l IH]; intros v Hl; simpl.
    - split; [apply vle_refl|]. split; auto. split; auto. right. intros n' d' f [].
    - set (v1 := propagateValue P v n0 d0 (ap f0 (val (v_tab v) n d))).
      destruct (IH v1) as (Hle & Hw & Hch & Hcl); [intros; apply Hl; right; auto|].
      assert (Hle1 : vle (v_tab v) (v_tab v1)) by apply propagateValue_vle.
      split; [eapply vle_trans; eauto|].
      split; [intros; apply Hw; apply propagateValue_wl; auto|].
      assert (Hch' : forall n1 d1, val (v_tab (fold_left (act1 n d) l v1)) n1 d1 = val (v_tab v) n1 d1 \/
                In (n1, d1) (v_wl (fold_left (act1 n d) l v1))).
      { intros n1 d1. destruct (Hch n1 d1) as [E|Hin]; auto.
        destruct (propagateValue_changed v n0 d0 (ap f0 (val (v_tab v) n d)) n1 d1) as [E1|Hin].
        - left. transitivity (val (v_tab v1) n1 d1); auto.
        - right. apply Hw. exact Hin. }
      split; [exact Hch'|].
      destruct Hcl as [Hin|Hcl]; [left; auto|].
      destruct (Hch' n d) as [E|Hin]; [|left; auto].
      right. intros n' d' f [E2|Hin]; [|apply Hcl; auto].
      injection E2; intros -> -> ->. rewrite E.
      eapply lle_trans; [exact LL| |apply Hle]. apply propagateValue_ge.
  Qed.

  Lemma VInv_task X v n d (v' := valuePropagationTask G P S0 U J v n d) :
    (forall n1 d1, (n1, d1) <> (n, d) -> val (v_tab v) n1 d1 <> topElement P \/ X n1 d1 -> okCell v n1 d1) ->
    VInv X v' /\ vle (v_tab v) (v_tab v') /\ okCell v' n d.
  Proof.
    intros HI. subst v'. rewrite task_acts.
    destruct (acts_run n d (acts n d) v (fun a h => h)) as (Hle & Hw & Hch & Hcl).
    set (v' := fold_left (act1 n d) (acts n d) v) in *.
    assert (Hk : okCell v' n d) by (destruct Hcl as [Hin|Hcl]; [left; auto|right; exact Hcl]).
    split; auto. intros n1 d1 Hx.
    destruct (eq_dec (n1, d1) (n, d)) as [E|Hne]; [injection E; intros -> ->; auto|].
    destruct (Hch n1 d1) as [E|Hin]; [|left; auto].
    eapply okCell_mono; eauto. apply HI; auto. rewrite <- E. auto.
  Qed.

  Lemma VInv_vstep X v v' : VInv X v -> vstep G P S0 U J v v' -> VInv X v' /\ vle (v_tab v) (v_tab v').
  Proof.
    intros HI Hs. destruct Hs as [v l1 l2 n d v' Ew Et Hp].
    destruct (VInv_task X (mkV (v_tab v) (l1 ++ l2)) n d) as [HV [Hle _]].
    - intros n1 d1 Hne Hx. destruct (HI n1 d1 Hx) as [Hin|Hc]; [left|right; exact Hc].
      rewrite Ew in Hin. simpl. rewrite in_app_iff in *. simpl in Hin. intuition congruence.
    - split.
      + intros n1 d1 Hx. rewrite Et in Hx. destruct (HV n1 d1 Hx) as [Hin|Hc].
        * left. eapply Permutation_in; [symmetry; exact Hp|auto].
        * right. intros n' d' f Ha. rewrite Et. apply Hc; auto.
      + intros n1 d1. rewrite Et. apply Hle.
  Qed.

  Lemma VInv_vsteps X v v' : VInv X v -> vsteps G P S0 U J v v' -> VInv X v' /\ vle (v_tab v) (v_tab v').
  Proof.
    intros HI Hs. induction Hs; [split; auto; apply vle_refl|].
    destruct (IHHs HI) as [HI2 Hle]. destruct (VInv_vstep X v2 v3 HI2 H2) as [HI3 Hle3].
    split; auto. eapply vle_trans; eauto.
  Qed.

  (** seeds *)
  Definition seedCells (A : @seeds N D L) : list (N * D * L) :=
    flat_map (fun '(n, facts) => map (fun '(d, l) => (n, d, l)) facts) A.

  Definition submit1 (v : vstate) (c : N * D * L) : vstate :=
    let '(n, d, l) := c in
    valuePropagationTask G P S0 U J
      (mkV (t_insert (v_tab v) n d (joinL P l (val (v_tab v) n d))) (v_wl v)) n d.

  Lemma submit_cells v :
    submitInitialValues G P S0 U J v = fold_left submit1 (seedCells (allSeeds P S0 U)) v.
  Proof.
    unfold submitInitialValues, seedCells. rewrite fold_left_flat_map. apply fold_left_ext.
    intros v1 [n facts]. rewrite fold_left_map. apply fold_left_ext. intros v2 [d l]. reflexivity.
  Qed.

  Lemma submit_fold l : forall X v, VInv X v ->
    let v' := fold_left submit1 l v in
    VInv (fun n d => X n d \/ exists x, In (n, d, x) l) v' /\ vle (v_tab v) (v_tab v') /\
    forall n d x, In (n, d, x) l -> lle x (val (v_tab v') n d).
  Proof.
    induction l as [|[[n d] x] l IH]; intros X v HI; simpl.
    - split; [|split; [apply vle_refl|intros n d x []]].
      intros n d [Hx|[Hx|[x []]]]; apply HI; auto.
    - set (v0 := mkV (t_insert (v_tab v) n d (joinL P x (val (v_tab v) n d))) (v_wl v)).
      assert (Hv0 : vle (v_tab v) (v_tab v0)).
      { intros n1 d1. simpl. rewrite val_insert. destruct (eq_dec _ _) as [E|]; [|apply lle_refl; auto].
        injection E; intros -> ->. apply lle_join_r; auto. }
      destruct (VInv_task X v0 n d) as [HV [Hle Hk]].
      { intros n1 d1 Hne Hx. apply okCell_mono with (v := v); auto.
        - left. simpl. rewrite val_insert. destruct (eq_dec _ _); [congruence|auto].
        - apply HI. destruct Hx as [Hx|]; auto. left. simpl in Hx. rewrite val_insert in Hx.
          destruct (eq_dec _ _); [congruence|auto]. }
      set (v1 := valuePropagationTask G P S0 U J v0 n d) in *.
      assert (HV' : VInv (fun n1 d1 => X n1 d1 \/ (n1, d1) = (n, d)) v1).
      { intros n1 d1 [Hx|[Hx|Hx]]; [apply HV; auto..|]. injection Hx; intros -> ->. auto. }
      destruct (IH _ v1 HV') as (HI' & Hle' & Hge).
      split; [|split].
      + intros n1 d1 Hx. apply HI'. destruct Hx as [Hx|[Hx|[x' [E|Hin]]]]; eauto.
        injection E; intros; subst. auto.
      + eapply vle_trans; [exact Hv0|]. eapply vle_trans; eauto.
      + intros n1 d1 x1 [E|Hin]; [|apply Hge; auto]. injection E; intros -> -> ->.
        eapply lle_trans; [exact LL| |apply Hle']. eapply lle_trans; [exact LL| |apply Hle].
        simpl. rewrite val_insert. destruct (eq_dec _ _); [|congruence]. apply lle_join_l; auto.
  Qed.

  Lemma seedCells_In A n d l : In (n, d, l) (seedCells A) <-> exists facts, In (n, facts) A /\ In (d, l) facts.
  Proof.
    unfold seedCells. rewrite in_flat_map. split.
    - intros [[n0 facts] [Hin Hm]]. apply in_map_iff in Hm. destruct Hm as [[d0 l0] [E Hf]].
      injection E; intros; subst. eauto.
    - intros [facts [Hin Hf]]. exists (n, facts). split; auto. apply in_map_iff. exists (d, l). auto.
  Qed.

  Lemma allSeeds_incl n facts : In (n, facts) S0 -> In (n, facts) (allSeeds P S0 U).
  Proof.
    unfold allSeeds. generalize S0. induction U as [|u us IH]; intros A Hin; simpl; auto.
    apply IH. destruct (afind u A) eqn:E; auto.
    clear IH. apply afind_None in E. induction A as [|[k x] A IHA]; simpl in *; [destruct Hin|].
    destruct (eq_dec u k) as [->|]; [exfalso; auto|].
    destruct Hin as [E2|Hin]; [left; auto|right; apply IHA; auto].
  Qed.

  (** Phase II(i) ends in a valuation that contains the seeds and is closed. *)
  Lemma phase2_closed v :
    vsteps G P S0 U J (submitInitialValues G P S0 U J (mkV [] [])) v -> v_wl v = [] ->
    (forall n d l, In (n, d, l) (seedCells S0) -> lle l (val (v_tab v) n d)) /\
    (forall n d, val (v_tab v) n d <> topElement P \/ (exists l, In (n, d, l) (seedCells (allSeeds P S0 U))) ->
       closedAt (v_tab v) n d).
  Proof.
    intros Hs Hw. rewrite submit_cells in Hs.
    destruct (submit_fold (seedCells (allSeeds P S0 U)) (fun _ _ => False) (mkV [] []))
      as (HI & Hle & Hge).
    { intros n d [Hx|[]]. exfalso. apply Hx. reflexivity. }
    destruct (VInv_vsteps _ _ _ HI Hs) as [HI2 Hle2].
    split.
    - intros n d l Hin. eapply lle_trans; [exact LL| |apply Hle2]. apply Hge.
      apply seedCells_In in Hin. destruct Hin as [facts [Hin Hf]]. apply seedCells_In.
      exists facts. split; auto. apply allSeeds_incl; auto.
    - intros n d Hx. destruct (HI2 n d) as [Hin|Hc]; auto.
      + destruct Hx; auto.
      + rewrite Hw in Hin. destruct Hin.
  Qed.

  (** *** upper bounds: every present value satisfies a predicate closed under
      the transfers *)
  Section Good.
    Variable Good : N -> D -> L -> Prop.
    Hypothesis Gjoin : forall n d x y, Good n d x -> Good n d y -> Good n d (joinL P x y).
    Hypothesis Gact : forall n d x n' d' f, Good n d x -> In (n', d', f) (acts n d) ->
      ap f x = topElement P \/ Good n' d' (ap f x).
    Hypothesis Gseed : forall n d l, In (n, d, l) (seedCells (allSeeds P S0 U)) -> Good n d l.

    Definition VG (v : vstate) : Prop :=
      (forall n d x, t_lookup (v_tab v) n d = Some x -> Good n d x) /\
      (forall n d, In (n, d) (v_wl v) -> t_lookup (v_tab v) n d <> None).

    Lemma val_some T n d x : t_lookup T n d = Some x -> val T n d = x.
    Proof. unfold IDESolverModel.val. intros ->. auto. Qed.

    Lemma VG_propagate v n d l : VG v -> l = topElement P \/ Good n d l -> VG (propagateValue P v n d l).
    Proof.
      intros [H2 H3] Hl.
      destruct (propagateValue_spec v n d l) as [[-> _]|[Ew [Et Hne]]]; [split; auto|].
      split; rewrite ?Et, ?Ew.
      - intros n' d' x. rewrite t_lookup_insert. destruct (eq_dec _ _) as [E|]; auto.
        injection E; intros -> ->. intros E2; injection E2; intros <-.
        destruct Hl as [->|Hl].
        + exfalso. apply Hne. rewrite (ll_comm _ LL), (ll_top _ LL). auto.
        + unfold IDESolverModel.val. destruct (t_lookup (v_tab v) n d) eqn:E3.
          * apply Gjoin; auto.
          * rewrite (ll_top _ LL). auto.
      - intros n' d' Hin. rewrite t_lookup_insert. destruct (eq_dec _ _); [congruence|].
        destruct Hin as [E|Hin]; [congruence|auto].
    Qed.

    Lemma propagateValue_keys v n d l n' d' :
      t_lookup (v_tab v) n' d' <> None -> t_lookup (v_tab (propagateValue P v n d l)) n' d' <> None.
    Proof.
      intros Hk. destruct (propagateValue_spec v n d l) as [[-> _]|[_ [-> _]]]; auto.
      rewrite t_lookup_insert. destruct (eq_dec _ _); congruence.
    Qed.

    Lemma VG_acts n d l : forall v, VG v -> t_lookup (v_tab v) n d <> None ->
      (forall a, In a l -> In a (acts n d)) -> VG (fold_left (act1 n d) l v).
    Proof.
      induction l as [|[[n0 d0] f0] l IH]; intros v HV Hk Hl; simpl; auto.
      apply IH.
      - apply VG_propagate; auto. destruct (t_lookup (v_tab v) n d) as [x|] eqn:E; [|congruence].
        rewrite (val_some _ _ _ _ E). apply Gact with (n := n) (d := d).
        + apply (proj1 HV); auto.
        + apply Hl; left; auto.
      - apply propagateValue_keys; auto.
      - intros; apply Hl; right; auto.
    Qed.

    Lemma VG_vstep v v' : VG v -> vstep G P S0 U J v v' -> VG v'.
    Proof.
      intros HV Hs. destruct Hs as [v l1 l2 n d v' Ew Et Hp].
      rewrite task_acts in Et, Hp.
      destruct (VG_acts n d (acts n d) (mkV (v_tab v) (l1 ++ l2))) as [HA HB]; auto.
      - split; [apply HV|]. intros n1 d1 Hin. apply HV. rewrite Ew.
        simpl in Hin. rewrite in_app_iff in *. simpl. tauto.
      - apply HV. rewrite Ew. apply in_app_iff. right; left; auto.
      - split; rewrite Et; auto. intros n1 d1 Hin. apply HB. eapply Permutation_in; eauto.
    Qed.

    Lemma VG_submit l : forall v, VG v -> (forall n d x, In (n, d, x) l -> Good n d x) ->
      VG (fold_left submit1 l v).
    Proof.
      induction l as [|[[n d] x] l IH]; intros v HV Hl; simpl; auto.
      apply IH; [|intros; apply Hl; right; auto].
      rewrite task_acts. apply VG_acts; auto.
      - split; simpl.
        + intros n' d' y. rewrite t_lookup_insert. destruct (eq_dec _ _) as [E|]; [|apply HV].
          injection E; intros -> ->. intros E2; injection E2; intros <-.
          unfold IDESolverModel.val. destruct (t_lookup (v_tab v) n d) eqn:E3.
          * apply Gjoin; [apply Hl; left; auto|apply HV; auto].
          * rewrite (ll_comm _ LL), (ll_top _ LL). apply Hl; left; auto.
        + intros n' d' Hin. rewrite t_lookup_insert. destruct (eq_dec _ _); [congruence|].
          apply HV; auto.
      - simpl. rewrite t_lookup_insert. destruct (eq_dec _ _); congruence.
    Qed.

    Lemma phase2_good v :
      vsteps G P S0 U J (submitInitialValues G P S0 U J (mkV [] [])) v -> VG v.
    Proof.
      intros Hs. rewrite submit_cells in Hs.
      remember (fold_left submit1 (seedCells (allSeeds P S0 U)) (mkV [] [])) as v0.
      induction Hs; [|eapply VG_vstep; eauto].
      subst. apply VG_submit; [|apply Gseed].
      split; [intros n d x E; discriminate E|intros n d []].
    Qed.
  End Good.

  (** seed cells are present *)
  Lemma keys_acts n d l : forall v n' d', t_lookup (v_tab v) n' d' <> None ->
    t_lookup (v_tab (fold_left (act1 n d) l v)) n' d' <> None.
  Proof.
    induction l as [|[[n0 d0] f0] l IH]; intros v n' d' Hk; simpl; auto.
    apply IH. apply propagateValue_keys; auto.
  Qed.

  Lemma keys_submit l : forall v n' d',
    (t_lookup (v_tab v) n' d' <> None \/ exists x, In (n', d', x) l) ->
    t_lookup (v_tab (fold_left submit1 l v)) n' d' <> None.
  Proof.
    induction l as [|[[n d] x] l IH]; intros v n' d' Hk; simpl.
    - destruct Hk as [Hk|[x []]]; auto.
    - apply IH. destruct Hk as [Hk|[x' [E|Hin]]].
      + left. rewrite task_acts. apply keys_acts. simpl. rewrite t_lookup_insert.
        destruct (eq_dec _ _); congruence.
      + left. injection E; intros; subst. rewrite task_acts. apply keys_acts. simpl.
        rewrite t_lookup_insert. destruct (eq_dec _ _); congruence.
      + right; eauto.
  Qed.

  Lemma keys_vsteps v v' n d : vsteps G P S0 U J v v' ->
    t_lookup (v_tab v) n d <> None -> t_lookup (v_tab v') n d <> None.
  Proof.
    intros Hs Hk. induction Hs; auto. destruct H2 as [v l1 l2 n0 d0 v' Ew Et Hp].
    rewrite Et, task_acts. apply keys_acts. simpl. auto.
  Qed.

  Lemma phase2_seed_keys v n d l :
    vsteps G P S0 U J (submitInitialValues G P S0 U J (mkV [] [])) v ->
    In (n, d, l) (seedCells (allSeeds P S0 U)) -> t_lookup (v_tab v) n d <> None.
  Proof.
    intros Hs Hin. eapply keys_vsteps; eauto. rewrite submit_cells. apply keys_submit. eauto.
  Qed.

  (** *** Phase II(ii) *)
  Definition fillActs : list (N * D * N * D * EF) :=
    flat_map (fun n =>
      flat_map (fun sp => map (fun '(d', d, f) => (n, d, sp, d', f)) (t_cells (jf_byTarget J n)))
        (getStartPointsOf G (getFunctionOf G n))) (allNonCallStartNodes G).

  Definition fill1 (T : tab) (a : N * D * N * D * EF) : tab :=
    let '(n, d, sp, d', f) := a in t_insert T n d (joinL P (val T n d) (ap f (val T sp d'))).

  Lemma fill_acts T : valueComputationTask G P J T = fold_left fill1 fillActs T.
  Proof.
    unfold valueComputationTask, fillActs. rewrite fold_left_flat_map. apply fold_left_ext.
    intros T1 n. rewrite fold_left_flat_map. apply fold_left_ext. intros T2 sp.
    rewrite fold_left_map. apply fold_left_ext. intros T3 [[d' d] f]. reflexivity.
  Qed.

  Lemma fillActs_In n d sp d' f (HJ : jf_ok J) :
    In (n, d, sp, d', f) fillActs <->
    In n (allNonCallStartNodes G) /\ In sp (getStartPointsOf G (getFunctionOf G n)) /\
    jf_get J d' n d = Some f.
  Proof.
    unfold fillActs. rewrite in_flat_map. split.
    - intros [n0 [Hn Hin]]. apply in_flat_map in Hin. destruct Hin as [sp0 [Hsp Hin]].
      apply in_map_iff in Hin. destruct Hin as [[[d1 d2] f0] [E Hc]].
      injection E; intros; subst. repeat split; auto.
      apply (In_byTarget J d' n d f HJ). auto.
    - intros (Hn & Hsp & Hf). exists n. split; auto. apply in_flat_map. exists sp. split; auto.
      apply in_map_iff. exists (d', d, f). split; auto.
      apply (In_byTarget J d' n d f HJ). auto.
  Qed.

  (** nodes in the domain of II(ii) are never start points *)
  Hypothesis FILL : forall n sp n', In n (allNonCallStartNodes G) ->
    In sp (getStartPointsOf G (getFunctionOf G n')) -> sp <> n.

  Lemma fill_fold (V : tab) l : (forall a, In a l -> In a fillActs) ->
    forall T, (forall n d, ~ In n (allNonCallStartNodes G) -> t_lookup T n d = t_lookup V n d) ->
    vle V T ->
    let T' := fold_left fill1 l T in
    (forall n d, ~ In n (allNonCallStartNodes G) -> t_lookup T' n d = t_lookup V n d) /\
    vle T T' /\
    (forall n d sp d' f, In (n, d, sp, d', f) l -> lle (ap f (val V sp d')) (val T' n d)).
  Proof.
    intros Hl. induction l as [|[[[[n d] sp] d'] f] l IH]; intros T HT Hle; simpl.
    - split; auto. split; [apply vle_refl|]. intros n d sp d' f [].
    - assert (Ha : In n (allNonCallStartNodes G) /\ exists n', In sp (getStartPointsOf G (getFunctionOf G n'))).
      { assert (Hin : In (n, d, sp, d', f) fillActs) by (apply Hl; left; auto).
        unfold fillActs in Hin. apply in_flat_map in Hin. destruct Hin as [n0 [Hn Hin]].
        apply in_flat_map in Hin. destruct Hin as [sp0 [Hsp Hin]].
        apply in_map_iff in Hin. destruct Hin as [[[d1 d2] f0] [E Hc]].
        injection E; intros; subst. eauto. }
      destruct Ha as [Hn [n' Hsp]].
      assert (Esp : val T sp d' = val V sp d').
      { unfold IDESolverModel.val. rewrite HT; auto. intros Hx. apply (FILL sp sp n'); auto. }
      set (T1 := t_insert T n d (joinL P (val T n d) (ap f (val T sp d')))).
      assert (H1T : vle T T1).
      { intros n1 d1. unfold T1. rewrite val_insert. destruct (eq_dec _ _) as [E|]; [|apply lle_refl; auto].
        injection E; intros -> ->. apply lle_join_l; auto. }
      destruct (IH (fun a h => Hl a (or_intror h)) T1) as (HA & HB & HC).
      + intros n1 d1 Hn1. unfold T1. rewrite t_lookup_insert.
        destruct (eq_dec _ _) as [E|]; [injection E; intros; subst; tauto|auto].
      + eapply vle_trans; eauto.
      + split; auto. split; [eapply vle_trans; eauto|].
        intros n1 d1 sp1 d1' f1 [E|Hin]; [|eauto].
        injection E; intros; subst. eapply lle_trans; [exact LL| |apply HB].
        unfold T1. rewrite val_insert. destruct (eq_dec _ _); [|congruence].
        rewrite Esp. apply lle_join_r; auto.
  Qed.

  Lemma fill_spec V (T := valueComputationTask G P J V) :
    (forall n d, ~ In n (allNonCallStartNodes G) -> t_lookup T n d = t_lookup V n d) /\
    vle V T /\
    (forall n d sp d' f, In (n, d, sp, d', f) fillActs -> lle (ap f (val V sp d')) (val T n d)).
  Proof.
    subst T. rewrite fill_acts.
    apply (fill_fold V fillActs (fun a h => h) V); auto using vle_refl.
  Qed.

  (** upper bound for II(ii) *)
  Lemma fill_good (Good : N -> D -> L -> Prop) V
    (Gjoin : forall n d x y, Good n d x -> Good n d y -> Good n d (joinL P x y))
    (GV : forall n d x, t_lookup V n d = Some x -> Good n d x)
    (Gfill : forall n d sp d' f, In (n, d, sp, d', f) fillActs -> Good n d (ap f (val V sp d'))) :
    forall n d x, t_lookup (valueComputationTask G P J V) n d = Some x -> Good n d x.
  Proof.
    rewrite fill_acts.
    assert (Hgen : forall l, (forall a, In a l -> In a fillActs) -> forall T,
       (forall n d, ~ In n (allNonCallStartNodes G) -> t_lookup T n d = t_lookup V n d) ->
       (forall n d x, t_lookup T n d = Some x -> Good n d x) ->
       forall n d x, t_lookup (fold_left fill1 l T) n d = Some x -> Good n d x).
    { induction l as [|[[[[n d] sp] d'] f] l IH]; intros Hl T HT HG; simpl; auto.
      assert (Ha : In n (allNonCallStartNodes G) /\ exists n', In sp (getStartPointsOf G (getFunctionOf G n'))).
      { assert (Hin : In (n, d, sp, d', f) fillActs) by (apply Hl; left; auto).
        unfold fillActs in Hin. apply in_flat_map in Hin. destruct Hin as [n0 [Hn Hin]].
        apply in_flat_map in Hin. destruct Hin as [sp0 [Hsp Hin]].
        apply in_map_iff in Hin. destruct Hin as [[[d1 d2] f0] [E Hc]].
        injection E; intros; subst. eauto. }
      destruct Ha as [Hn [n' Hsp]].
      assert (Esp : val T sp d' = val V sp d').
      { unfold IDESolverModel.val. rewrite HT; auto. intros Hx. apply (FILL sp sp n'); auto. }
      apply IH.
      - intros; apply Hl; right; auto.
      - intros n1 d1 Hn1. rewrite t_lookup_insert.
        destruct (eq_dec _ _) as [E|]; [injection E; intros; subst; tauto|auto].
      - intros n1 d1 x. rewrite t_lookup_insert. destruct (eq_dec _ _) as [E|]; auto.
        injection E; intros -> ->. intros E2; injection E2; intros <-. rewrite Esp.
        assert (Hg : Good n d (ap f (val V sp d'))) by (apply Gfill; apply Hl; left; auto).
        unfold IDESolverModel.val at 1. destruct (t_lookup T n d) eqn:E3.
        + apply Gjoin; auto.
        + rewrite (ll_top _ LL). auto. }
    apply Hgen; auto.
  Qed.

  (** keys written by II(ii) *)
  Lemma fill_keys V n d :
    (t_lookup V n d <> None \/ exists sp d' f, In (n, d, sp, d', f) fillActs) ->
    t_lookup (valueComputationTask G P J V) n d <> None.
  Proof.
    rewrite fill_acts. generalize V. induction fillActs as [|[[[[n0 d0] sp0] d0'] f0] l IH]; intros T Hk; simpl.
    - destruct Hk as [Hk|[sp [d' [f []]]]]; auto.
    - apply IH. destruct Hk as [Hk|[sp [d' [f [E|Hin]]]]]; [left|left|right; eauto].
      + rewrite t_lookup_insert. destruct (eq_dec _ _); congruence.
      + injection E; intros; subst. rewrite t_lookup_insert. destruct (eq_dec _ _); congruence.
  Qed.
End P2.
