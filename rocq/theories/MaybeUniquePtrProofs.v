(** Proofs about MaybeUniquePtr: the packed word and the ownership ledger. *)
From Coq Require Import List Bool Arith NArith Lia.
From Verif Require Import Assoc MaybeUniquePtrModel MaybeUniquePtrSpec.
Import ListNotations.
Open Scope N_scope.

(** * The packed word *)

Lemma aligned_low a low p : alignedTo a p -> low <= a -> N.land p (N.ones low) = 0.
Proof.
  unfold alignedTo. intros H L. rewrite N.land_ones. rewrite <- (N.sub_add low a L), N.pow_add_r in H.
  apply N.mod_divide in H; [|apply N.neq_mul_0; split; apply N.pow_nonzero; discriminate].
  apply N.mod_divide; [apply N.pow_nonzero; discriminate|].
  destruct H as [z H]. exists (z * 2 ^ (a - low)). rewrite H. lia.
Qed.

Lemma update_pointer low w b : 0 < low -> wordPointer low (updateInt low w b) = wordPointer low w.
Proof.
  intros L. unfold wordPointer, updateInt. apply N.bits_inj. intros n. rewrite !N.ldiff_spec, N.lor_spec, N.ldiff_spec.
  destruct (N.lt_ge_cases n low) as [H|H].
  - rewrite N.ones_spec_low by exact H. now rewrite !andb_false_r.
  - rewrite N.ones_spec_high by exact H. rewrite !andb_true_r. rewrite !N.shiftl_spec_high' by lia.
    assert (n - (low - 1) <> 0) by lia. destruct (n - (low - 1)) as [|q]; [lia|].
    replace (N.testbit 1 (N.pos q)) with false by (destruct q; reflexivity).
    replace (N.testbit (if b then 1 else 0) (N.pos q)) with false by (destruct b, q; reflexivity). now rewrite andb_true_r, orb_false_r.
Qed.

Lemma update_int low w b : 0 < low -> wordInt low (updateInt low w b) = b.
Proof.
  intros L. unfold wordInt, updateInt.
  assert (E : N.land (N.shiftr (N.lor (N.ldiff w (N.shiftl 1 (low - 1))) (N.shiftl (if b then 1 else 0) (low - 1))) (low - 1)) 1 = if b then 1 else 0).
  { apply N.bits_inj. intros n. rewrite N.land_spec. destruct n as [|q].
    - rewrite N.shiftr_spec', N.lor_spec, N.ldiff_spec, !N.add_0_l, !N.shiftl_spec_high' by lia.
      replace (low - 1 - (low - 1)) with 0 by lia. cbn [N.testbit]. rewrite andb_false_r. destruct b; reflexivity.
    - replace (N.testbit 1 (N.pos q)) with false by (destruct q; reflexivity). rewrite andb_false_r. destruct b, q; reflexivity. }
  rewrite E. destruct b; reflexivity.
Qed.

Section P.
  Variable ly : layout.
  Variable asserts : bool.
  Variable align : N.
  (** the layout fits the alignment *)
  Hypothesis Hly : match ly with Fallback => True | Packed low => 0 < low /\ low <= align end.

  Definition shaped (d : data) : Prop := match ly, d with Fallback, DPair _ _ => True | Packed _, DWord _ => True | _, _ => False end.
  Definition good (d : data) : Prop := shaped d /\ (getInt ly d = true -> getPointer ly d <> 0).

  Lemma dmake_ok p b : alignedTo align p -> exists d, dmake ly asserts p b = Some d /\ shaped d /\ getPointer ly d = p /\ getInt ly d = b.
  Proof.
    intros A. unfold dmake, shaped, getPointer, getInt. destruct ly as [|low].
    - eexists. split; [reflexivity|]. cbn. auto.
    - destruct Hly as [L1 L2]. assert (E := aligned_low align low p A L2). unfold updatePointer. rewrite E. rewrite andb_false_r.
      eexists. split; [reflexivity|]. split; [exact I|]. split; [|now apply update_int].
      rewrite update_pointer by exact L1. rewrite N.land_0_l, N.lor_0_r. unfold wordPointer.
      apply N.bits_inj. intros n. rewrite N.ldiff_spec. assert (F := f_equal (fun x => N.testbit x n) E). cbn beta in F. rewrite N.land_spec, N.bits_0 in F.
      destruct (N.testbit p n), (N.testbit (N.ones low) n); try reflexivity; discriminate.
  Qed.

  Lemma setInt_ok d b : shaped d -> shaped (setInt ly d b) /\ getPointer ly (setInt ly d b) = getPointer ly d /\ getInt ly (setInt ly d b) = b.
  Proof.
    unfold shaped, setInt, getPointer, getInt. destruct ly as [|low], d as [p f|w]; cbn; try tauto.
    intros _. destruct Hly as [L1 _]. split; [exact I|]. split; [now apply update_pointer|now apply update_int].
  Qed.

  Lemma dnull_ok : good (dnull ly) /\ getPointer ly (dnull ly) = 0 /\ getInt ly (dnull ly) = false.
  Proof.
    unfold good, shaped, dnull, getPointer, getInt. destruct ly as [|low]; cbn; [repeat split; discriminate|].
    assert (W : wordInt low 0 = false) by (unfold wordInt; rewrite N.shiftr_0_l; reflexivity). rewrite W.
    split; [split; [exact I|discriminate]|]. split; [|reflexivity]. reflexivity.
  Qed.

  (** does [d] own [o]? *)
  Definition ownsN (o : N) (d : data) : nat := if getInt ly d && N.eqb (getPointer ly d) o then 1%nat else 0%nat.
  Fixpoint owners (o : N) (st : state) : nat := match st with [] => 0%nat | e :: r => (ownsN o (snd e) + owners o r)%nat end.

  Lemma owners_new o s d st : afind s st = None -> owners o (aset s d st) = (owners o st + ownsN o d)%nat.
  Proof.
    induction st as [|[k v] st IH]; cbn; [lia|]. destruct (eq_dec s k); [discriminate|]. intros H. cbn. rewrite IH by exact H. lia.
  Qed.
  Lemma owners_set o s d d0 st : afind s st = Some d0 -> (owners o (aset s d st) + ownsN o d0 = owners o st + ownsN o d)%nat.
  Proof.
    induction st as [|[k v] st IH]; cbn; [discriminate|]. destruct (eq_dec s k); [intros [= ->]; cbn; lia|]. intros H. cbn. specialize (IH H). lia.
  Qed.
  Lemma owners_del o s d0 st : afind s st = Some d0 -> (owners o (adel s st) + ownsN o d0 = owners o st)%nat.
  Proof.
    induction st as [|[k v] st IH]; cbn; [discriminate|]. destruct (eq_dec s k); [intros [= ->]; lia|]. intros H. cbn. specialize (IH H). lia.
  Qed.
  Lemma owners_find o s d st : afind s st = Some d -> (ownsN o d <= owners o st)%nat.
  Proof.
    induction st as [|[k v] st IH]; cbn; [discriminate|]. destruct (eq_dec s k); [intros [= ->]; lia|]. intros H. specialize (IH H). lia.
  Qed.

  Record inv (ops : list op) (st : state) (tr : list event) : Prop := {
    i_nodup : NoDup (akeys st);
    i_live : forall s, In s (akeys st) <-> alive ops s;
    i_good : forall s d, afind s st = Some d -> good d;
    i_ledger : forall o, (handedOver o tr = givenBack o tr + deletions o tr + owners o st)%nat;
    i_one : forall o, (deletions o tr + owners o st <= 1)%nat;
    i_null : forall o, handedOver o tr <> 0%nat -> o <> 0 }.

  Lemma times_app e a b : times e (a ++ b) = (times e a + times e b)%nat.
  Proof. apply count_occ_app. Qed.

  Lemma alive_snoc ops o s : alive (ops ++ [o]) s <-> creates o = Some s \/ (alive ops s /\ o <> Destroy s).
  Proof.
    split.
    - intros H. inversion H as [ops' o' s' C E|ops' o' s' A D E]; apply app_inj_tail in E; destruct E as [-> ->]; auto.
    - intros [H|[H D]]; [now apply alive_new|now apply alive_old].
  Qed.

  Lemma live_find ops st tr s : inv ops st tr -> alive ops s -> exists d, afind s st = Some d /\ good d.
  Proof.
    intros I A. apply (i_live _ _ _ I) in A. destruct (afind s st) as [d|] eqn:F; [exists d; split; [reflexivity|exact (i_good _ _ _ I s d F)]|]. now apply afind_None in F.
  Qed.
  Lemma dead_find ops st tr s : inv ops st tr -> ~ alive ops s -> afind s st = None.
  Proof. intros I A. apply afind_None. intros H. apply A. now apply (i_live _ _ _ I). Qed.

  Lemma deleteOwned_ok d : good d -> deleteOwned ly asserts d = Some (if getInt ly d then [Deleted (getPointer ly d)] else []).
  Proof.
    intros [_ G]. unfold deleteOwned, owns. destruct (getInt ly d); [|rewrite andb_false_r; reflexivity].
    destruct (N.eqb_spec (getPointer ly d) 0) as [E|E]; [now elim (G eq_refl)|]. rewrite andb_false_r. reflexivity.
  Qed.

  Lemma times_deleteOwned d o :
    times (Deleted o) (if getInt ly d then [Deleted (getPointer ly d)] else []) = ownsN o d
    /\ times (Given o) (if getInt ly d then [Deleted (getPointer ly d)] else []) = 0%nat
    /\ times (Released o) (if getInt ly d then [Deleted (getPointer ly d)] else []) = 0%nat.
  Proof.
    unfold times, ownsN. destruct (getInt ly d); cbn [andb count_occ]; [|auto].
    split; [|split].
    - destruct (event_eq_dec _ _) as [E|E]; destruct (N.eqb_spec (getPointer ly d) o) as [F|F]; try reflexivity; [injection E; congruence|now elim E; f_equal].
    - destruct (event_eq_dec _ _) as [E|E]; [discriminate|reflexivity].
    - destruct (event_eq_dec _ _) as [E|E]; [discriminate|reflexivity].
  Qed.
  Lemma times_released d o :
    times (Released o) (if getInt ly d then [Released (getPointer ly d)] else []) = ownsN o d
    /\ times (Given o) (if getInt ly d then [Released (getPointer ly d)] else []) = 0%nat
    /\ times (Deleted o) (if getInt ly d then [Released (getPointer ly d)] else []) = 0%nat.
  Proof.
    unfold times, ownsN. destruct (getInt ly d); cbn [andb count_occ]; [|auto].
    split; [|split].
    - destruct (event_eq_dec _ _) as [E|E]; destruct (N.eqb_spec (getPointer ly d) o) as [F|F]; try reflexivity; [injection E; congruence|now elim E; f_equal].
    - destruct (event_eq_dec _ _) as [E|E]; [discriminate|reflexivity].
    - destruct (event_eq_dec _ _) as [E|E]; [discriminate|reflexivity].
  Qed.
  Lemma times_given d p b o : getPointer ly d = p -> getInt ly d = b && negb (N.eqb p 0) ->
    times (Given o) (given p b) = ownsN o d /\ times (Deleted o) (given p b) = 0%nat /\ times (Released o) (given p b) = 0%nat.
  Proof.
    intros P B. unfold given, times, ownsN. rewrite P, B. destruct (b && negb (N.eqb p 0)); cbn [andb count_occ]; [|auto].
    split; [|split].
    - destruct (event_eq_dec _ _) as [E|E]; destruct (N.eqb_spec p o) as [F|F]; try reflexivity; [injection E; congruence|now elim E; f_equal].
    - destruct (event_eq_dec _ _) as [E|E]; [discriminate|reflexivity].
    - destruct (event_eq_dec _ _) as [E|E]; [discriminate|reflexivity].
  Qed.

  Lemma made_good d p b : shaped d -> getPointer ly d = p -> getInt ly d = b && negb (N.eqb p 0) -> good d.
  Proof.
    intros H P B. split; [exact H|]. rewrite P, B. intros E. apply andb_true_iff in E. destruct E as [_ E]. apply negb_true_iff, N.eqb_neq in E. exact E.
  Qed.

  Lemma ownsN_made o d p b : getPointer ly d = p -> getInt ly d = b && negb (N.eqb p 0) -> ownsN o d <> 0%nat -> o = p /\ b = true /\ p <> 0.
  Proof.
    intros P B. unfold ownsN. rewrite P, B. destruct b; cbn; [|congruence]. destruct (N.eqb_spec p 0); cbn; [congruence|]. destruct (N.eqb_spec p o); [|congruence]. auto.
  Qed.

  Lemma ownsN_one x d : ownsN x d <> 0%nat -> ownsN x d = 1%nat.
  Proof. unfold ownsN. destruct (_ && _); congruence. Qed.

  Lemma inv_step ops st tr o st' ev : inv ops st tr -> allowed align ops tr o ->
    NoDup (akeys st') -> (forall s, In s (akeys st') <-> alive (ops ++ [o]) s) -> (forall s d, afind s st' = Some d -> good d) ->
    (forall x, (times (Given x) ev + owners x st = times (Released x) ev + times (Deleted x) ev + owners x st')%nat) ->
    (forall x, times (Given x) ev <> 0%nat -> times (Given x) ev = 1%nat /\ handsOver o = Some x) ->
    inv (ops ++ [o]) st' (tr ++ ev).
  Proof.
    intros [I1 I2 I3 I4 I5 I6] [A1 A2 A3 A4] N L G E H. constructor; auto.
    - intros x. unfold handedOver, givenBack, deletions in *. rewrite !times_app. specialize (I4 x). specialize (E x). lia.
    - intros x. specialize (I4 x). specialize (I5 x). specialize (E x). unfold handedOver, givenBack, deletions in *. rewrite times_app.
      destruct (Nat.eq_dec (times (Given x) ev) 0) as [Z|Z]; [lia|]. destruct (H x Z) as [Z1 Z2]. destruct (A4 x Z2) as [B1 B2].
      unfold handedOver, givenBack, deletions in *. lia.
    - intros x K. unfold handedOver in *. rewrite times_app in K. destruct (Nat.eq_dec (times (Given x) ev) 0) as [Z|Z]; [apply I6; lia|].
      destruct (H x Z) as [_ Z2]. clear - Z2. intros ->. destruct o as [| ? ? [|] | | | | | | |]; cbn in Z2; try discriminate;
        match type of Z2 with context [N.eqb ?p 0] => destruct (N.eqb_spec p 0); congruence end.
  Qed.

  Lemma new_keys ops st tr o s d : inv ops st tr -> creates o = Some s -> (forall x, o <> Destroy x) ->
    forall x, In x (akeys (aset s d st)) <-> alive (ops ++ [o]) x.
  Proof.
    intros I C ND x. rewrite In_akeys_aset, alive_snoc, (i_live _ _ _ I), C. split.
    - intros [->|H]; [now left|right; split; [exact H|apply ND]].
    - intros [[= ->]|[H _]]; auto.
  Qed.

  Lemma old_keys ops st tr o s d : inv ops st tr -> creates o = None -> (forall x, o <> Destroy x) -> alive ops s ->
    forall x, In x (akeys (aset s d st)) <-> alive (ops ++ [o]) x.
  Proof.
    intros I C ND A x. rewrite In_akeys_aset, alive_snoc, (i_live _ _ _ I), C. split.
    - intros [->|H]; right; (split; [assumption|apply ND]).
    - intros [K|[H _]]; [discriminate|auto].
  Qed.

  Lemma set_good ops st tr s d : inv ops st tr -> good d -> forall x y, afind x (aset s d st) = Some y -> good y.
  Proof.
    intros I G x y. rewrite afind_aset. destruct (eq_dec x s); [intros [= <-]; exact G|]. apply (i_good _ _ _ I).
  Qed.

  Lemma ev_nil e : times e [] = 0%nat. Proof. reflexivity. Qed.

  Theorem step_ok ops st tr o : inv ops st tr -> allowed align ops tr o ->
    exists st' ev, step ly asserts o st = Some (st', ev) /\ inv (ops ++ [o]) st' (tr ++ ev).
  Proof.
    intros I A. assert (Al := al_aligned _ _ _ _ A). destruct dnull_ok as [Gn [Pn Fn]].
    destruct o as [s|s p b|s p|s f|s f|s p|s|s|s]; cbn [step passes] in *.
    - rewrite (dead_find _ _ _ s I) by (apply (al_creates _ _ _ _ A); reflexivity). eexists _, _. split; [reflexivity|].
      assert (D := dead_find _ _ _ s I (al_creates _ _ _ _ A s eq_refl)).
      apply (inv_step ops st tr (Default s)); auto.
      + apply NoDup_aset, (i_nodup _ _ _ I).
      + apply (new_keys ops st tr); auto; discriminate.
      + apply (set_good ops st tr); auto.
      + intros x. rewrite !ev_nil, owners_new by exact D. unfold ownsN. rewrite Fn. cbn. lia.
      + intros x K. now elim K.
    - assert (D := dead_find _ _ _ s I (al_creates _ _ _ _ A s eq_refl)). rewrite D.
      destruct (dmake_ok p (b && negb (N.eqb p 0)) Al) as [d [E [Sh [P B]]]]. rewrite E. eexists _, _. split; [reflexivity|].
      apply (inv_step ops st tr (FromRaw s p b)); auto.
      + apply NoDup_aset, (i_nodup _ _ _ I).
      + apply (new_keys ops st tr); auto; discriminate.
      + apply (set_good ops st tr); auto. eapply made_good; eauto.
      + intros x. destruct (times_given d p b x P B) as [T1 [T2 T3]]. rewrite T1, T2, T3, owners_new by exact D. lia.
      + intros x K. destruct (times_given d p b x P B) as [T1 _]. rewrite T1 in *. destruct (ownsN_made x d p b P B K) as [-> [-> NZ]].
        split; [exact (ownsN_one _ _ K)|]. cbn. destruct (N.eqb_spec p 0); [contradiction|reflexivity].
    - assert (D := dead_find _ _ _ s I (al_creates _ _ _ _ A s eq_refl)). rewrite D.
      destruct (dmake_ok p (true && negb (N.eqb p 0)) Al) as [d [E [Sh [P B]]]]. rewrite E. eexists _, _. split; [reflexivity|].
      apply (inv_step ops st tr (FromUnique s p)); auto.
      + apply NoDup_aset, (i_nodup _ _ _ I).
      + apply (new_keys ops st tr); auto; discriminate.
      + apply (set_good ops st tr); auto. eapply made_good; eauto.
      + intros x. destruct (times_given d p true x P B) as [T1 [T2 T3]]. rewrite T1, T2, T3, owners_new by exact D. lia.
      + intros x K. destruct (times_given d p true x P B) as [T1 _]. rewrite T1 in *. destruct (ownsN_made x d p true P B K) as [-> [_ NZ]].
        split; [exact (ownsN_one _ _ K)|]. cbn. destruct (N.eqb_spec p 0); [contradiction|reflexivity].
    - assert (D := dead_find _ _ _ s I (al_creates _ _ _ _ A s eq_refl)). rewrite D.
      assert (Af := al_uses _ _ _ _ A f (or_introl eq_refl)). destruct (live_find _ _ _ f I Af) as [d [F G]]. rewrite F. eexists _, _. split; [reflexivity|].
      assert (NE : s <> f) by congruence.
      apply (inv_step ops st tr (MoveConstruct s f)); auto.
      + apply NoDup_aset, NoDup_aset, (i_nodup _ _ _ I).
      + intros x. rewrite !In_akeys_aset, alive_snoc, (i_live _ _ _ I). cbn [creates]. split.
        * intros [->|[->|H]]; [now left|right; split; [exact Af|discriminate]|right; split; [exact H|discriminate]].
        * intros [[= ->]|[H _]]; auto.
      + intros x y. rewrite !afind_aset. destruct (eq_dec x s); [intros [= <-]; exact G|]. destruct (eq_dec x f); [intros [= <-]; exact Gn|]. apply (i_good _ _ _ I).
      + intros x. rewrite !ev_nil, owners_new by (rewrite afind_aset_neq by exact NE; exact D).
        assert (Q := owners_set x f (dnull ly) d st F). unfold ownsN at 2 in Q. rewrite Fn in Q. cbn [andb] in Q. lia.
      + intros x K. now elim K.
    - assert (As := al_uses _ _ _ _ A s (or_introl eq_refl)). destruct (live_find _ _ _ s I As) as [d [F G]]. rewrite F.
      assert (Af := al_uses _ _ _ _ A f (or_intror (or_introl eq_refl))). destruct (live_find _ _ _ f I Af) as [d' [F' G']]. rewrite F'. eexists _, _. split; [reflexivity|].
      apply (inv_step ops st tr (MoveAssign s f)); auto.
      + apply NoDup_aset, NoDup_aset, (i_nodup _ _ _ I).
      + intros x. rewrite !In_akeys_aset, alive_snoc, (i_live _ _ _ I). cbn [creates]. split.
        * intros [->|[->|H]]; right; (split; [assumption|discriminate]).
        * intros [K|[H _]]; [discriminate|auto].
      + intros x y. rewrite !afind_aset. destruct (eq_dec x f); [intros [= <-]; exact G|]. destruct (eq_dec x s); [intros [= <-]; exact G'|]. apply (i_good _ _ _ I).
      + intros x. rewrite !ev_nil. assert (Q := owners_set x s d' d st F). destruct (Nat.eq_dec f s) as [->|NE].
        * assert (d' = d) by congruence. subst d'. assert (Q' := owners_set x s d d (aset s d st) (afind_aset_eq s d st)). lia.
        * assert (Q' := owners_set x f d d' (aset s d' st)). rewrite afind_aset_neq in Q' by exact NE. specialize (Q' F'). lia.
      + intros x K. now elim K.
    - assert (As := al_uses _ _ _ _ A s (or_introl eq_refl)). destruct (live_find _ _ _ s I As) as [d [F G]]. rewrite F.
      rewrite (deleteOwned_ok d G). destruct (dmake_ok p (negb (N.eqb p 0)) Al) as [d' [E [Sh [P B]]]]. rewrite E. eexists _, _. split; [reflexivity|].
      change (negb (N.eqb p 0)) with (true && negb (N.eqb p 0)) in B.
      apply (inv_step ops st tr (AssignUnique s p)); auto.
      + apply NoDup_aset, (i_nodup _ _ _ I).
      + apply (old_keys ops st tr); auto; discriminate.
      + apply (set_good ops st tr); auto. eapply made_good; eauto.
      + intros x. rewrite !times_app. destruct (times_given d' p true x P B) as [T1 [T2 T3]]. destruct (times_deleteOwned d x) as [U1 [U2 U3]].
        rewrite T1, T2, T3, U1, U2, U3. assert (Q := owners_set x s d' d st F). lia.
      + intros x K. rewrite times_app in *. destruct (times_given d' p true x P B) as [T1 _]. destruct (times_deleteOwned d x) as [_ [U2 _]]. rewrite T1, U2 in *. cbn [Nat.add] in *.
        destruct (ownsN_made x d' p true P B K) as [-> [_ NZ]].
        split; [exact (ownsN_one _ _ K)|]. cbn. destruct (N.eqb_spec p 0); [contradiction|reflexivity].
    - assert (As := al_uses _ _ _ _ A s (or_introl eq_refl)). destruct (live_find _ _ _ s I As) as [d [F G]]. rewrite F.
      rewrite (deleteOwned_ok d G). eexists _, _. split; [reflexivity|].
      apply (inv_step ops st tr (ResetNull s)); auto.
      + apply NoDup_aset, (i_nodup _ _ _ I).
      + apply (old_keys ops st tr); auto; discriminate.
      + apply (set_good ops st tr); auto.
      + intros x. destruct (times_deleteOwned d x) as [U1 [U2 U3]]. rewrite U1, U2, U3.
        assert (Q := owners_set x s (dnull ly) d st F). unfold ownsN at 2 in Q. rewrite Fn in Q. cbn [andb] in Q. lia.
      + intros x K. destruct (times_deleteOwned d x) as [_ [U2 _]]. congruence.
    - assert (As := al_uses _ _ _ _ A s (or_introl eq_refl)). destruct (live_find _ _ _ s I As) as [d [F G]]. rewrite F. eexists _, _. split; [reflexivity|].
      destruct (setInt_ok d false (proj1 G)) as [Sh [P B]].
      apply (inv_step ops st tr (Release s)); auto.
      + apply NoDup_aset, (i_nodup _ _ _ I).
      + apply (old_keys ops st tr); auto; discriminate.
      + apply (set_good ops st tr); auto. split; [exact Sh|]. rewrite B. discriminate.
      + intros x. destruct (times_released d x) as [U1 [U2 U3]]. rewrite U1, U2, U3.
        assert (Q := owners_set x s (setInt ly d false) d st F). unfold ownsN at 2 in Q. rewrite B in Q. cbn [andb] in Q. lia.
      + intros x K. destruct (times_released d x) as [_ [U2 _]]. congruence.
    - assert (As := al_uses _ _ _ _ A s (or_introl eq_refl)). destruct (live_find _ _ _ s I As) as [d [F G]]. rewrite F.
      rewrite (deleteOwned_ok d G). eexists _, _. split; [reflexivity|].
      apply (inv_step ops st tr (Destroy s)); auto.
      + apply NoDup_adel, (i_nodup _ _ _ I).
      + intros x. rewrite alive_snoc. cbn [creates]. rewrite <- (i_live _ _ _ I). split.
        * intros H. right. split; [now apply In_akeys_adel in H|]. intros [= ->]. assert (X := afind_adel_eq x st (i_nodup _ _ _ I)). now apply afind_None in X.
        * intros [K|[H K]]; [discriminate|]. destruct (afind x (adel s st)) as [y|] eqn:Y; [now apply afind_Some_key in Y|].
          rewrite afind_adel_neq in Y by congruence. now apply afind_None in Y.
      + intros x y K. destruct (eq_dec x s) as [->|NE]; [rewrite afind_adel_eq in K by (apply (i_nodup _ _ _ I)); discriminate|].
        rewrite afind_adel_neq in K by exact NE. exact (i_good _ _ _ I x y K).
      + intros x. destruct (times_deleteOwned d x) as [U1 [U2 U3]]. rewrite U1, U2, U3. assert (Q := owners_del x s d st F). lia.
      + intros x K. destruct (times_deleteOwned d x) as [_ [U2 _]]. congruence.
  Qed.

  Theorem history_inv ops st tr : history ly asserts align ops st tr -> inv ops st tr.
  Proof.
    induction 1 as [|ops st tr o st' ev H IH A E].
    - constructor.
      + apply NoDup_nil.
      + intros s. split; [intros []|]. intros K. inversion K as [a b c d F|a b c d F G]; destruct a; discriminate.
      + discriminate.
      + reflexivity.
      + intros o. cbn. lia.
      + intros o K. now elim K.
    - destruct (step_ok ops st tr o IH A) as [st2 [ev2 [E2 I2]]]. assert (st2 = st') by congruence. assert (ev2 = ev) by congruence. now subst.
  Qed.
End P.
