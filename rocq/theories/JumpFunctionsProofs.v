(** Proofs about the JumpFunctions model: the three views present one map. *)
From Coq Require Import List Bool.
From Verif Require Import Assoc TableModel TableProofs JumpFunctionsModel.
Import ListNotations.

Section JumpFunctions.
  Context {N D EF : Type} `{EqDec N} `{EqDec D}.
  Variable isAllTop : EF -> bool.
  Notation jf := (jumpfns N D EF).
  Implicit Types (J : jf) (n : N) (d : D) (f : EF).

  (** the abstract map, read from the by-target table *)
  Definition jf_get J d1 n d2 : option EF := t_lookup (jf_byTarget J n) d1 d2.

  Definition jf_rev_get J d1 n d2 : option EF :=
    match jf_reverse J n d2 with Some l => afind d1 l | None => None end.
  Definition jf_fwd_get J d1 n d2 : option EF :=
    match jf_forward J d1 n with Some l => afind d2 l | None => None end.

  Record jf_ok J : Prop := {
    jf_ok_rev_nd : forall n d2 l, jf_reverse J n d2 = Some l -> NoDup (akeys l);
    jf_ok_fwd_nd : forall d1 n l, jf_forward J d1 n = Some l -> NoDup (akeys l);
    jf_ok_byt_wf : forall n, t_wf (jf_byTarget J n);
    jf_ok_byt_nd : NoDup (akeys (jf_byt J));
    jf_ok_rev : forall d1 n d2, jf_rev_get J d1 n d2 = jf_get J d1 n d2;
    jf_ok_fwd : forall d1 n d2, jf_fwd_get J d1 n d2 = jf_get J d1 n d2
  }.

  Lemma jf_ok_empty : jf_ok jf_empty.
  Proof.
    split; try (intros; discriminate); try reflexivity.
    - intros n; simpl. apply t_wf_empty.
    - constructor.
  Qed.

  Lemma jf_get_empty d1 n d2 : jf_get jf_empty d1 n d2 = None.
  Proof. reflexivity. Qed.

  Lemma jf_byTarget_add J d1 n d2 f n' : isAllTop f = false ->
    jf_byTarget (jf_add isAllTop J d1 n d2 f) n' =
    if eq_dec n' n then t_insert (jf_byTarget J n) d1 d2 f else jf_byTarget J n'.
  Proof.
    intros E. unfold jf_byTarget, jf_add. rewrite E. simpl. unfold afindd at 1.
    rewrite afind_aset. destruct (eq_dec n' n); auto.
  Qed.

  Lemma jf_get_add J d1 n d2 f d1' n' d2' : isAllTop f = false ->
    jf_get (jf_add isAllTop J d1 n d2 f) d1' n' d2' =
    if eq_dec (d1', n', d2') (d1, n, d2) then Some f else jf_get J d1' n' d2'.
  Proof.
    intros E. unfold jf_get. rewrite jf_byTarget_add by auto.
    destruct (eq_dec n' n) as [->|Hn].
    - rewrite t_lookup_insert. destruct (eq_dec (d1', d2') (d1, d2)) as [E2|Hd].
      + injection E2; intros -> ->. destruct (eq_dec _ _); congruence.
      + destruct (eq_dec (d1', n, d2') (d1, n, d2)); congruence.
    - destruct (eq_dec (d1', n', d2') (d1, n, d2)); congruence.
  Qed.

  Lemma jf_rev_get_add J d1 n d2 f d1' n' d2' : isAllTop f = false ->
    jf_rev_get (jf_add isAllTop J d1 n d2 f) d1' n' d2' =
    if eq_dec (d1', n', d2') (d1, n, d2) then Some f else jf_rev_get J d1' n' d2'.
  Proof.
    intros E. unfold jf_rev_get, jf_reverse, jf_add. rewrite E. simpl.
    rewrite t_lookup_insert. destruct (eq_dec (n', d2') (n, d2)) as [E2|Hd].
    - injection E2; intros -> ->. rewrite afind_aset.
      destruct (eq_dec d1' d1) as [->|Hd1].
      + destruct (eq_dec _ _); congruence.
      + destruct (eq_dec (d1', n, d2) (d1, n, d2)); [congruence|].
        unfold t_get. destruct (t_lookup (jf_rev J) n d2); auto.
    - destruct (eq_dec (d1', n', d2') (d1, n, d2)); congruence.
  Qed.

  Lemma jf_fwd_get_add J d1 n d2 f d1' n' d2' : isAllTop f = false ->
    jf_fwd_get (jf_add isAllTop J d1 n d2 f) d1' n' d2' =
    if eq_dec (d1', n', d2') (d1, n, d2) then Some f else jf_fwd_get J d1' n' d2'.
  Proof.
    intros E. unfold jf_fwd_get, jf_forward, jf_add. rewrite E. simpl.
    rewrite t_lookup_insert. destruct (eq_dec (d1', n') (d1, n)) as [E2|Hd].
    - injection E2; intros -> ->. rewrite afind_aset.
      destruct (eq_dec d2' d2) as [->|Hd1].
      + destruct (eq_dec _ _); congruence.
      + destruct (eq_dec (d1, n, d2') (d1, n, d2)); [congruence|].
        unfold t_get. destruct (t_lookup (jf_fwd J) d1 n); auto.
    - destruct (eq_dec (d1', n', d2') (d1, n, d2)); congruence.
  Qed.

  Lemma jf_ok_add J d1 n d2 f : jf_ok J -> jf_ok (jf_add isAllTop J d1 n d2 f).
  Proof.
    intros [Hr Hf Hb Hbn Hre Hfe].
    destruct (isAllTop f) eqn:E; [unfold jf_add; rewrite E; split; auto|].
    split.
    - intros n' d2' l. unfold jf_reverse, jf_add. rewrite E. simpl.
      rewrite t_lookup_insert. destruct (eq_dec _ _) as [E2|]; [|apply Hr].
      intros E3; injection E3; intros <-. apply NoDup_aset.
      unfold t_get. destruct (t_lookup (jf_rev J) n d2) eqn:E4; [|constructor].
      eapply Hr; eauto.
    - intros d1' n' l. unfold jf_forward, jf_add. rewrite E. simpl.
      rewrite t_lookup_insert. destruct (eq_dec _ _) as [E2|]; [|apply Hf].
      intros E3; injection E3; intros <-. apply NoDup_aset.
      unfold t_get. destruct (t_lookup (jf_fwd J) d1 n) eqn:E4; [|constructor].
      eapply Hf; eauto.
    - intros n'. rewrite jf_byTarget_add by auto.
      destruct (eq_dec n' n); auto. apply t_wf_insert; auto.
    - unfold jf_add. rewrite E. simpl. apply NoDup_aset; auto.
    - intros. rewrite jf_rev_get_add, jf_get_add, Hre; auto.
    - intros. rewrite jf_fwd_get_add, jf_get_add, Hfe; auto.
  Qed.

  (** list-membership forms used by the solver proofs *)
  Definition revl J n d2 := match jf_reverse J n d2 with Some l => l | None => [] end.
  Definition fwdl J d1 n := match jf_forward J d1 n with Some l => l | None => [] end.

  Lemma In_revl J d1 n d2 f : jf_ok J ->
    (In (d1, f) (revl J n d2) <-> jf_get J d1 n d2 = Some f).
  Proof.
    intros [Hr Hf Hb Hbn Hre Hfe]. rewrite <- Hre. unfold revl, jf_rev_get.
    destruct (jf_reverse J n d2) eqn:E; [|simpl; split; [tauto|congruence]].
    apply In_afind_iff. eapply Hr; eauto.
  Qed.

  Lemma In_fwdl J d1 n d2 f : jf_ok J ->
    (In (d2, f) (fwdl J d1 n) <-> jf_get J d1 n d2 = Some f).
  Proof.
    intros [Hr Hf Hb Hbn Hre Hfe]. rewrite <- Hfe. unfold fwdl, jf_fwd_get.
    destruct (jf_forward J d1 n) eqn:E; [|simpl; split; [tauto|congruence]].
    apply In_afind_iff. eapply Hf; eauto.
  Qed.

  Lemma In_byTarget J d1 n d2 f : jf_ok J ->
    (In (d1, d2, f) (t_cells (jf_byTarget J n)) <-> jf_get J d1 n d2 = Some f).
  Proof. intros [Hr Hf Hb Hbn Hre Hfe]. apply t_cells_In; auto. Qed.

  Lemma afind_revl J d1 n d2 : jf_ok J -> afind d1 (revl J n d2) = jf_get J d1 n d2.
  Proof.
    intros Hok. rewrite <- (jf_ok_rev _ Hok). unfold revl, jf_rev_get.
    destruct (jf_reverse J n d2); auto.
  Qed.

  Lemma afind_fwdl J d1 n d2 : jf_ok J -> afind d2 (fwdl J d1 n) = jf_get J d1 n d2.
  Proof.
    intros Hok. rewrite <- (jf_ok_fwd _ Hok). unfold fwdl, jf_fwd_get.
    destruct (jf_forward J d1 n); auto.
  Qed.

  (** Specification: the last function added for a key (AllTop is "absent" and
      adding it leaves the entry unchanged, as the code returns early). *)
  Inductive jop := JAdd (d1 : D) (n : N) (d2 : D) (f : EF) | JClear.
  Definition jspec := D -> N -> D -> option EF.
  Definition jspec_step (m : jspec) (o : jop) : jspec := fun d1 n d2 =>
    match o with
    | JAdd d1' n' d2' f =>
        if eq_dec (d1, n, d2) (d1', n', d2')
        then (if isAllTop f then m d1 n d2 else Some f) else m d1 n d2
    | JClear => None
    end.
  Definition jimpl_step J (o : jop) : jf :=
    match o with
    | JAdd d1 n d2 f => jf_add isAllTop J d1 n d2 f
    | JClear => jf_clear J
    end.
  Definition jspec_run os : jspec := fold_left jspec_step os (fun _ _ _ => None).
  Definition jimpl_run os : jf := fold_left jimpl_step os jf_empty.

  Lemma jf_refines_gen os : forall J m, jf_ok J ->
    (forall d1 n d2, jf_get J d1 n d2 = m d1 n d2) ->
    jf_ok (fold_left jimpl_step os J) /\
    forall d1 n d2, jf_get (fold_left jimpl_step os J) d1 n d2 = fold_left jspec_step os m d1 n d2.
  Proof.
    induction os as [|o os IH]; simpl; auto. intros J m Hok Hm. apply IH.
    - destruct o; simpl; [apply jf_ok_add; auto|apply jf_ok_empty].
    - intros. destruct o; simpl; auto.
      destruct (isAllTop f) eqn:E.
      + unfold jf_add. rewrite E. destruct (eq_dec _ _); auto.
      + rewrite jf_get_add by auto. destruct (eq_dec _ _); auto.
  Qed.

  Lemma jf_views os (J := jimpl_run os) (m := jspec_run os) :
    forall d1 n d2 f,
      (In (d1, f) (revl J n d2) <-> m d1 n d2 = Some f) /\
      (In (d2, f) (fwdl J d1 n) <-> m d1 n d2 = Some f) /\
      (In (d1, d2, f) (t_cells (jf_byTarget J n)) <-> m d1 n d2 = Some f).
  Proof.
    intros. destruct (jf_refines_gen os jf_empty (fun _ _ _ => None) jf_ok_empty
                        (fun _ _ _ => eq_refl)) as [Hok Hm].
    subst J m. unfold jimpl_run, jspec_run. rewrite <- Hm.
    split; [apply In_revl; auto|]. split; [apply In_fwdl; auto|apply In_byTarget; auto].
  Qed.

  Lemma jf_views_nodup os (J := jimpl_run os) n d1 d2 :
      NoDup (akeys (revl J n d2)) /\ NoDup (akeys (fwdl J d1 n)) /\
      NoDup (map fst (t_cells (jf_byTarget J n))).
  Proof.
    destruct (jf_refines_gen os jf_empty (fun _ _ _ => None) jf_ok_empty
                        (fun _ _ _ => eq_refl)) as [[Hr Hf Hb Hbn Hre Hfe] Hm].
    subst J. unfold revl, fwdl, jimpl_run. split; [|split].
    - destruct (jf_reverse _ n d2) eqn:E; [eapply Hr; eauto|constructor].
    - destruct (jf_forward _ d1 n) eqn:E; [eapply Hf; eauto|constructor].
    - apply t_cells_NoDup; auto.
  Qed.
End JumpFunctions.

(** removal destroys the by-target view of unrelated entries *)
Lemma jf_remove_breaks :
  exists (os : list (@jop nat nat nat)) (d1 n d2 : nat),
    let J := jimpl_run (fun _ => false) os in
    let J' := fst (jf_remove J d1 n d2) in
    jf_rev_get J' 5 n 6 = Some 42 /\ jf_fwd_get J' 5 n 6 = Some 42 /\
    jf_get J' 5 n 6 = None /\ (d1, d2) <> (5, 6).
Proof.
  exists [JAdd 1 0 2 7; JAdd 5 0 6 42], 1, 0, 2. vm_compute. repeat split. congruence.
Qed.

(** removal of an absent function reports success when the node has others *)
Lemma jf_remove_reports :
  exists (os : list (@jop nat nat nat)) (d1 n d2 : nat),
    let J := jimpl_run (fun _ => false) os in
    jf_get J d1 n d2 = None /\ snd (jf_remove J d1 n d2) = true.
Proof. exists [JAdd 5 0 6 42], 1, 0, 2. vm_compute. repeat split. Qed.
