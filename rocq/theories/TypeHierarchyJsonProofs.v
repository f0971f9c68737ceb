(** Serialising a type hierarchy and loading it again. *)
From Coq Require Import String List Bool Arith Lia Relations Permutation.
From Verif Require Import Assoc TypeHierarchyModel TypeHierarchySpec TypeHierarchyProofs.
Import ListNotations.

Lemma aset_fresh {V} (k : string) (v : V) l : ~ In k (akeys l) -> aset k v l = l ++ [(k, v)].
Proof.
  induction l as [|[k' v'] l IH]; intros H; cbn [aset]; [reflexivity|].
  cbn [akeys map fst] in H. destruct (eq_dec k k') as [->|N]; [elim H; now left|].
  cbn [app]. f_equal. apply IH. intros K. apply H. now right.
Qed.

Lemma fold_append {A V} (key : A -> string) (val : A -> V -> V) (d0 : V) l m0 :
  NoDup (akeys m0 ++ map key l) ->
  fold_left (fun d x => aset (key x) (val x (afindd d0 (key x) d)) d) l m0 = m0 ++ map (fun x => (key x, val x d0)) l.
Proof.
  revert m0. induction l as [|x l IH]; intros m0 H; cbn [fold_left map]; [now rewrite app_nil_r|].
  assert (F : ~ In (key x) (akeys m0)).
  { cbn [map] in H. apply NoDup_remove_2 in H. intros K. apply H. apply in_or_app. now left. }
  unfold afindd. rewrite (proj2 (afind_None (key x) m0) F). rewrite aset_fresh by exact F.
  unfold afindd in IH. rewrite IH.
  - rewrite <- app_assoc. reflexivity.
  - unfold akeys in *. rewrite map_app. cbn [map fst]. rewrite <- app_assoc. exact H.
Qed.

Section J.
  Variable nm : nat -> string.
  Variable demangle : string -> string.
  Notation build := (build nm demangle).
  Notation toData := (toData nm).
  Notation nameToType := (nameToType nm).
  Notation load := (load nm).

  Definition distinctNames (ts : list nat) : Prop := forall t u, In t ts -> In u ts -> nm t = nm u -> t = u.

  Lemma NoDup_names ts : NoDup ts -> distinctNames ts -> NoDup (map nm ts).
  Proof.
    induction ts as [|t ts IH]; intros ND D; cbn [map]; [constructor|]. inversion_clear ND as [|? ? N1 N2]. constructor.
    - rewrite in_map_iff. intros [u [E U]]. elim N1. rewrite <- (D u t); auto; [now right|now left].
    - apply IH; [exact N2|]. intros a b A B. apply D; now right.
  Qed.

  Lemma toData_eq h : NoDup (map nm (tVerts h)) -> toData h = map (fun v => (nm v, map nm (afindd [] v (tReach h)))) (tVerts h).
  Proof.
    intros ND. unfold TypeHierarchyModel.toData.
    exact (fold_append nm (fun v x => x ++ map nm (afindd [] v (tReach h))) [] (tVerts h) [] ND).
  Qed.

  Lemma readData_eq l : NoDup (akeys l) -> readData (Some l) = Some (map (fun e => (fst e, concat (snd e))) l).
  Proof.
    intros ND. unfold readData. f_equal.
    exact (fold_append fst (fun (e : string * list (list string)) x => x ++ concat (snd e)) [] l [] ND).
  Qed.

  Lemma nameToType_spec ts d n t :
    afind n (nameToType ts d) = Some t -> In n (akeys d) /\ In t ts /\ nm t = n.
  Proof.
    unfold TypeHierarchyModel.nameToType.
    assert (G : forall (d : thdata) m0, afind n (fold_left (fun m e => match find (fun t => eqb (fst e) (nm t)) ts with
        | Some t => if mem (fst e) (akeys m) then m else m ++ [(fst e, t)] | None => m end) d m0) = Some t ->
        afind n m0 = Some t \/ (In n (akeys d) /\ In t ts /\ nm t = n)).
    { clear d. induction d as [|e d IH]; intros m0 H; cbn [fold_left] in H; [now left|].
      apply IH in H. cbn [akeys map In]. fold (akeys d). destruct H as [H|H]; [|tauto].
      destruct (find (fun t => eqb (fst e) (nm t)) ts) as [u|] eqn:F; [|now left].
      destruct (mem (fst e) (akeys m0)) eqn:M; [now left|]. apply mem_false in M.
      rewrite <- aset_fresh in H by exact M. rewrite afind_aset in H. destruct (eq_dec n (fst e)) as [->|N]; [|now left].
      injection H as <-. apply find_some in F. destruct F as [F1 F2]. apply eqb_eq in F2. right. auto. }
    intros H. apply G in H. destruct H as [H|H]; [discriminate|exact H].
  Qed.

  Lemma nameToType_has ts d t : distinctNames ts -> In t ts -> In (nm t) (akeys d) -> afind (nm t) (nameToType ts d) = Some t.
  Proof.
    intros D Ht Hd. unfold TypeHierarchyModel.nameToType.
    assert (G : forall (d : thdata) m0, (In (nm t) (akeys d) /\ afind (nm t) m0 = None) \/ afind (nm t) m0 = Some t ->
        afind (nm t) (fold_left (fun m e => match find (fun t => eqb (fst e) (nm t)) ts with
        | Some t => if mem (fst e) (akeys m) then m else m ++ [(fst e, t)] | None => m end) d m0) = Some t).
    { clear d Hd. induction d as [|e d IH]; intros m0 H; cbn [fold_left].
      - destruct H as [[[] _]|H]; exact H.
      - apply IH. destruct (find (fun t => eqb (fst e) (nm t)) ts) as [u|] eqn:F.
        + apply find_some in F. destruct F as [F1 F2]. apply eqb_eq in F2.
          destruct (mem (fst e) (akeys m0)) eqn:M.
          * apply mem_true in M. destruct H as [[[E|H] H0]|H]; [|auto|auto].
            rewrite E in M. apply afind_None in H0. now elim H0.
          * apply mem_false in M. rewrite <- aset_fresh by exact M. rewrite afind_aset.
            destruct (eq_dec (nm t) (fst e)) as [E|N].
            -- right. f_equal. apply D; auto. congruence.
            -- destruct H as [[[E|H] H0]|H]; [now elim N|auto|auto].
        + destruct H as [[[E|H] H0]|H]; [|auto|auto]. exfalso.
          apply (find_none _ ts F t) in Ht. apply eqb_false in Ht. now elim Ht. }
    apply G. left. split; [exact Hd|reflexivity].
  Qed.

  Lemma loadEdges nt src l h : (forall n, In n l -> exists t, afind n nt = Some t) ->
    exists h', fold_left (loadEdge nt src) l (Loaded h) = Loaded h' /\ tVerts h' = tVerts h
      /\ forall x y, In y (afindd [] x (tReach h')) <-> In y (afindd [] x (tReach h)) \/ (x = src /\ exists n, In n l /\ afind n nt = Some y).
  Proof.
    revert h. induction l as [|n l IH]; intros h H; cbn [fold_left].
    - exists h. split; [reflexivity|]. split; [reflexivity|]. intros x y. split; [auto|intros [K|[_ [n [[] _]]]]; exact K].
    - destruct (H n) as [t Ht]; [now left|]. unfold loadEdge at 2. rewrite Ht.
      destruct (IH (addEdge src t (mkTH (tVerts h) (tEdges h) (addReach src t (tReach h))))) as [h' [E [V R]]]; [intros k K; apply H; now right|].
      exists h'. split; [exact E|]. split; [exact V|]. intros x y. rewrite R. unfold addEdge. cbn [tReach]. rewrite addReach_In. split.
      + intros [[K|[-> ->]]|[-> [k [K1 K2]]]]; [auto| |].
        * right. split; [reflexivity|]. exists n. split; [now left|exact Ht].
        * right. split; [reflexivity|]. exists k. split; [now right|exact K2].
      + intros [K|[-> [k [[<-|K1] K2]]]]; [auto| |].
        * left. right. split; [reflexivity|congruence].
        * right. split; [reflexivity|]. exists k. auto.
  Qed.

  Lemma loadEntries nt (d : list (string * list string)) h :
    (forall e n, In e d -> In n (snd e) -> exists t, afind n nt = Some t) ->
    exists h', fold_left (fun acc e => match afind (fst e) nt with None => acc | Some src => fold_left (loadEdge nt src) (snd e) acc end) d (Loaded h) = Loaded h'
      /\ tVerts h' = tVerts h
      /\ forall x y, In y (afindd [] x (tReach h')) <-> In y (afindd [] x (tReach h)) \/ (exists e n, In e d /\ afind (fst e) nt = Some x /\ In n (snd e) /\ afind n nt = Some y).
  Proof.
    revert h. induction d as [|e d IH]; intros h H; cbn [fold_left].
    - exists h. split; [reflexivity|]. split; [reflexivity|]. intros x y. split; [auto|intros [K|[e [n [[] _]]]]; exact K].
    - assert (Hd : forall e n, In e d -> In n (snd e) -> exists t, afind n nt = Some t) by (intros a n A B; apply (H a n); [now right|exact B]).
      destruct (afind (fst e) nt) as [src|] eqn:F.
      + destruct (loadEdges nt src (snd e) h) as [h1 [E1 [V1 R1]]]; [intros n Hn; apply (H e n); [now left|exact Hn]|].
        rewrite E1. destruct (IH h1 Hd) as [h' [E [V R]]]. exists h'. split; [exact E|]. split; [congruence|].
        intros x y. rewrite R, R1. split.
        * intros [[K|[-> [n [N1 N2]]]]|[a [n [A1 A2]]]]; [auto| |].
          -- right. exists e, n. split; [now left|auto].
          -- right. exists a, n. split; [now right|auto].
        * intros [K|[a [n [[<-|A1] [A2 [A3 A4]]]]]]; [auto| |].
          -- left. right. split; [congruence|]. exists n. auto.
          -- right. exists a, n. auto.
      + destruct (IH h Hd) as [h' [E [V R]]]. exists h'. split; [exact E|]. split; [exact V|].
        intros x y. rewrite R. split.
        * intros [K|[a [n [A1 A2]]]]; [auto|]. right. exists a, n. split; [now right|auto].
        * intros [K|[a [n [[<-|A1] [A2 [A3 A4]]]]]]; [auto|congruence|]. right. exists a, n. auto.
  Qed.

  Lemma fold_map_vertex (l : list (string * nat)) h : fold_left (fun h e => addVertex h (snd e)) l h = fold_left addVertex (map snd l) h.
  Proof. revert h. induction l as [|e l IH]; intros h; cbn [fold_left map]; [reflexivity|apply IH]. Qed.

  Lemma nt_keys ts (d : list (string * list string)) : NoDup (akeys (nameToType ts d)).
  Proof.
    unfold TypeHierarchyModel.nameToType.
    assert (G : forall m0 : list (string * nat), NoDup (akeys m0) -> NoDup (akeys (fold_left (fun m e => match find (fun t => eqb (fst e) (nm t)) ts with
        | Some t => if mem (fst e) (akeys m) then m else m ++ [(fst e, t)] | None => m end) d m0))).
    { induction d as [|e d' IH]; intros m0 H; cbn [fold_left]; [exact H|]. apply IH.
      destruct (find (fun t => eqb (fst e) (nm t)) ts) as [u|]; [|exact H].
      destruct (mem (fst e) (akeys m0)) eqn:M; [exact H|]. apply mem_false in M. rewrite <- aset_fresh by exact M. now apply NoDup_aset. }
    apply G. constructor.
  Qed.

  Lemma json_round_trip m j' order : NoDup (mTypes m) -> distinctNames (mTypes m) -> mTypes m <> [] ->
    (forall l, Permutation (order l) l) ->
    match printData (toData (build m)) with Some j => Permutation j' j | None => False end ->
    exists d h', readData (Some j') = Some d /\ load order m d = Loaded h'
      /\ (forall t, hasType h' t = hasType (build m) t)
      /\ (forall t s, isSubType h' t s = isSubType (build m) t s).
  Proof.
    intros ND DN NE OP.
    set (h := build m).
    assert (HV : forall t, In t (tVerts h) <-> In t (mTypes m)) by (intro; apply build_verts).
    assert (VND : NoDup (tVerts h)).
    { subst h. unfold TypeHierarchyModel.build, cacheReachable. cbn [tVerts]. now destruct (construct_ok nm demangle m) as [_ [_ [_ D]]]. }
    assert (KND : NoDup (map nm (tVerts h))) by (apply NoDup_names; [exact VND|intros a b A B; apply DN; now apply HV]).
    assert (SUB : forall t s, In t (mTypes m) -> In s (afindd [] t (tReach h)) -> In s (mTypes m)).
    { intros t s Ht Hs. assert (X : In s (getSubTypes h t)) by (unfold getSubTypes; rewrite (proj2 (mem_true t (tVerts h))) by (now apply HV); exact Hs).
      subst h. rewrite build_sub in X by exact Ht. apply clos_rt_rtn1 in X. destruct X as [|y z [Y _] _]; assumption. }
    assert (SELF : forall t, In t (mTypes m) -> In t (afindd [] t (tReach h))).
    { intros t Ht. assert (X : In t (getSubTypes h t)) by (subst h; rewrite build_sub by exact Ht; apply rt_refl).
      unfold getSubTypes in X. rewrite (proj2 (mem_true t (tVerts h))) in X by (now apply HV). exact X. }
    rewrite (toData_eq h KND). set (D := map (fun v => (nm v, map nm (afindd [] v (tReach h)))) (tVerts h)).
    assert (DNE : D <> []).
    { subst D. intros X. apply map_eq_nil in X. apply NE. destruct (mTypes m) as [|t ts]; [reflexivity|].
      assert (Y : In t (tVerts h)) by (apply HV; now left). rewrite X in Y. destruct Y. }
    unfold printData. destruct D as [|p D'] eqn:ED; [now elim DNE|]. rewrite <- ED in *. clear p D' ED DNE. intros PJ.
    assert (JK : akeys D = map nm (tVerts h)) by (unfold akeys; subst D; rewrite map_map; reflexivity).
    assert (KJ : NoDup (akeys j')).
    { unfold akeys. apply (Permutation_NoDup (l := map fst (map (fun e => (fst e, [snd e])) D))).
      - apply Permutation_map. now apply Permutation_sym.
      - rewrite map_map. cbn [fst]. change (map (fun x => fst x) D) with (akeys D). now rewrite JK. }
    rewrite (readData_eq j' KJ). set (d := map (fun e => (fst e, concat (snd e))) j').
    assert (PD : Permutation d D).
    { subst d. eapply Permutation_trans; [apply Permutation_map; exact PJ|]. rewrite map_map. cbn [fst snd].
      rewrite (map_ext _ (fun e => e)); [now rewrite map_id|]. intros [a b]. cbn. now rewrite app_nil_r. }
    assert (DK : forall n, In n (akeys d) <-> exists t, In t (mTypes m) /\ nm t = n).
    { intros n. transitivity (In n (akeys D)).
      - split; apply Permutation_in; unfold akeys; apply Permutation_map; [exact PD|now apply Permutation_sym].
      - rewrite JK, in_map_iff. split; intros [t [A B]]; exists t; [rewrite <- HV|rewrite HV]; auto. }
    assert (NT : forall n t, afind n (nameToType (mTypes m) d) = Some t <-> In t (mTypes m) /\ nm t = n).
    { intros n t. split.
      - intros H. apply nameToType_spec in H. tauto.
      - intros [A <-]. apply nameToType_has; auto. apply DK. eauto. }
    exists d. unfold TypeHierarchyModel.load. rewrite fold_map_vertex.
    set (nt := nameToType (mTypes m) d) in *.
    destruct (addVertices (map snd (order nt)) (mkTH [] [] [])) as [A1 [A2 [A3 A4]]]; [intros t []|]. cbn zeta in *.
    set (h0 := fold_left addVertex (map snd (order nt)) (mkTH [] [] [])) in *.
    assert (V0 : forall t, In t (tVerts h0) <-> In t (mTypes m)).
    { intros t. rewrite A1. cbn [In tVerts]. rewrite in_map_iff. split.
      - intros [[]|[[n u] [E H]]]. cbn in E. subst u. apply (Permutation_in _ (OP nt)) in H.
        apply (In_afind n t nt) in H; [|apply nt_keys]. now apply NT in H.
      - intros H. right. exists (nm t, t). split; [reflexivity|]. apply (Permutation_in _ (Permutation_sym (OP nt))).
        apply afind_In. now apply NT. }
    assert (DE : forall e, In e d <-> exists t, In t (mTypes m) /\ e = (nm t, map nm (afindd [] t (tReach h)))).
    { intros e. transitivity (In e D); [split; apply Permutation_in; [exact PD|now apply Permutation_sym]|].
      unfold D. rewrite in_map_iff. split; intros [t [A B]]; exists t; [rewrite <- HV|rewrite HV]; auto. }
    destruct (loadEntries nt d h0) as [h' [E [V R]]].
    { intros e n He Hn. apply DE in He. destruct He as [t [T ->]]. cbn [snd] in Hn. apply in_map_iff in Hn. destruct Hn as [s [<- Hs]].
      exists s. apply NT. split; [|reflexivity]. now apply (SUB t). }
    exists h'. split; [reflexivity|]. split; [exact E|].
    assert (HT : forall t, hasType h' t = hasType h t).
    { intros t. unfold hasType. rewrite V. destruct (mem t (tVerts h0)) eqn:M; destruct (mem t (tVerts h)) eqn:M'; try reflexivity.
      - apply mem_true in M. apply mem_false in M'. elim M'. rewrite HV, <- V0. exact M.
      - apply mem_false in M. apply mem_true in M'. elim M. rewrite V0, <- HV. exact M'. }
    split; [exact HT|]. intros t s.
    assert (G : In s (getSubTypes h' t) <-> In s (getSubTypes h t)).
    { unfold getSubTypes. unfold hasType in HT. rewrite HT. destruct (mem t (tVerts h)) eqn:M; [|tauto].
      apply mem_true in M. apply HV in M. rewrite R. unfold afindd at 1. rewrite A3 by now apply V0. cbn [In]. split.
      - intros [[<-|[]]|[e [n [He [F1 [F2 F3]]]]]]; [now apply SELF|].
        apply DE in He. destruct He as [u [U ->]]. cbn [fst snd] in *. apply NT in F1. destruct F1 as [_ F1].
        assert (t = u) by (now apply DN). subst u. apply in_map_iff in F2. destruct F2 as [w [F2 W]].
        apply NT in F3. destruct F3 as [F3 F4]. assert (w = s); [|congruence]. apply DN; [now apply (SUB t)|exact F3|congruence].
      - intros H. right. exists (nm t, map nm (afindd [] t (tReach h))), (nm s). cbn [fst snd].
        split; [apply DE; eauto|]. split; [now apply NT|]. split; [now apply in_map|]. apply NT. split; [|reflexivity]. now apply (SUB t). }
    unfold isSubType. destruct (mem s (getSubTypes h' t)) eqn:M; destruct (mem s (getSubTypes h t)) eqn:M'; try reflexivity.
    - apply mem_true in M. apply mem_false in M'. elim M'. now apply G.
    - apply mem_false in M. apply mem_true in M'. elim M. now apply G.
  Qed.
End J.
