(** Proofs about the resolvers. *)
From Coq Require Import String List Bool Arith NArith Lia Relations.
From Verif Require Import Assoc TypeHierarchyModel TypeHierarchySpec TypeHierarchyProofs ResolverModel ResolverSpec.
Import ListNotations.
Open Scope nat_scope.

Lemma typeMatch_iff a f : typeMatch a f = true <-> passable a f.
Proof.
  revert f. induction a as [n|a IH| |s|k i]; intros f.
  - cbn [typeMatch]. destruct (eqb (TInt n) f) eqn:E.
    + apply eqb_eq in E. subst f. split; [constructor|reflexivity].
    + apply eqb_false in E. destruct f; split; intros H; try discriminate; inversion H; subst; now elim E.
  - cbn [typeMatch]. destruct (eqb (TPtr a) f) eqn:E.
    + apply eqb_eq in E. subst f. split; [constructor|reflexivity].
    + apply eqb_false in E. destruct f as [n|f| |s|k i].
      * split; [discriminate|inversion 1].
      * rewrite orb_true_iff, IH. split.
        -- intros [H|H]; [apply eqb_eq in H; subst f; constructor|now constructor].
        -- intros H. inversion H; subst; [now elim E|left; apply eqb_refl|now right].
      * split; [constructor|reflexivity].
      * split; [discriminate|inversion 1].
      * split; [discriminate|inversion 1].
  - cbn [typeMatch]. destruct f as [n|f| |s|k i]; cbn; split; intros H; try discriminate; try constructor; try (inversion H; fail).
  - cbn [typeMatch]. destruct (eqb (TStruct s) f) eqn:E.
    + apply eqb_eq in E. subst f. split; [constructor|reflexivity].
    + apply eqb_false in E. destruct f; split; intros H; try discriminate; try constructor; inversion H; subst; now elim E.
  - cbn [typeMatch]. destruct (eqb (TOther k i) f) eqn:E.
    + apply eqb_eq in E. subst f. split; [constructor|reflexivity].
    + apply eqb_false in E. destruct f; split; intros H; try discriminate; inversion H; subst; now elim E.
Qed.

Lemma forallb_combine xs ys : length ys = length xs ->
  (forallb (fun p => typeMatch (fst p) (snd p)) (combine xs ys) = true <-> Forall2 passable xs ys).
Proof.
  revert ys. induction xs as [|x xs IH]; intros [|y ys] L; cbn in L; try discriminate.
  - split; [constructor|reflexivity].
  - cbn [combine forallb fst snd]. rewrite andb_true_iff, typeMatch_iff, IH by lia. split.
    + intros [A B]. now constructor.
    + inversion 1. auto.
Qed.

Lemma consistent_iff c f : isConsistentCall c f = true <-> invokes c f.
Proof.
  unfold isConsistentCall, invokes, matchesSignature.
  destruct (length (cArgs c) <? length (fnParams f)) eqn:A.
  { apply Nat.ltb_lt in A. split; [discriminate|]. intros [[H|[_ H]] _]; lia. }
  apply Nat.ltb_ge in A.
  assert (S : (length (fnParams f) =? length (cParams c)) && eqb (fnRet f) (cRet c) && forallb (fun p => typeMatch (fst p) (snd p)) (combine (cParams c) (fnParams f)) = true
     <-> Forall2 passable (cParams c) (fnParams f) /\ cRet c = fnRet f).
  { rewrite !andb_true_iff. split.
    - intros [[H1 H2] H3]. apply Nat.eqb_eq in H1. apply eqb_eq in H2. rewrite forallb_combine in H3 by exact H1. auto.
    - intros [H1 H2]. assert (L : length (cParams c) = length (fnParams f)) by (clear - H1; induction H1; cbn; congruence). rewrite forallb_combine by lia. rewrite H2, eqb_refl.
      split; [split; [apply Nat.eqb_eq; lia|reflexivity]|exact H1]. }
  destruct (length (cArgs c) =? length (fnParams f)) eqn:B.
  - apply Nat.eqb_eq in B. cbn [negb andb]. rewrite S. tauto.
  - apply Nat.eqb_neq in B. destruct (fnVarArg f) eqn:V; cbn [negb andb].
    + rewrite S. split; [intros; split; [right; auto|assumption]|intros [_ H]; exact H].
    + split; [discriminate|]. intros [[H|[H _]] _]; [lia|discriminate].
Qed.

Lemma receiver_iff c r : getReceiverType c = Some r <-> receives c r.
Proof.
  unfold getReceiverType, receives. destruct (cArgs c) as [|a [|b l]] eqn:E; cbn [length Nat.eqb orb].
  - split; [discriminate|]. intros [[|p pre] [rest [H _]]]; discriminate.
  - destruct (cSRet c); cbn [andb Nat.ltb Nat.leb nth_error].
    + split; [discriminate|]. intros [[|p [|q pre]] [rest [H L]]]; try discriminate.
    + split.
      * intros H. exists [], []. split; [|reflexivity]. cbn. destruct a as [| [] | | |]; try discriminate. congruence.
      * intros [[|p pre] [rest [H L]]]; [|discriminate]. cbn in H. injection H as -> _. reflexivity.
  - destruct (cSRet c); cbn [andb Nat.ltb Nat.leb nth_error].
    + split.
      * intros H. exists [a], l. split; [|reflexivity]. cbn. destruct b as [| [] | | |]; try discriminate. congruence.
      * intros [[|p [|q pre]] [rest [H L]]]; try discriminate. cbn in H. injection H as -> -> _. reflexivity.
    + split.
      * intros H. exists [], (b :: l). split; [|reflexivity]. cbn. destruct a as [| [] | | |]; try discriminate. congruence.
      * intros [[|p pre] [rest [H L]]]; [|discriminate]. cbn in H. injection H as -> _. reflexivity.
Qed.

Lemma index_of c k : callsSlot c k -> getVFTIndex c = Some k.
Proof. intros [n [E [L ->]]]. unfold getVFTIndex. rewrite E. now rewrite N.mod_small by exact L. Qed.

Section P.
  Variable nm : nat -> string.
  Variable demangle : string -> string.
  Variable fun_ : nat -> func.
  Notation makeVTP := (makeVTP nm demangle).
  Notation tvMap := (tvMap demangle).
  Notation getVirtualFunctions := (getVirtualFunctions nm).
  Notation collect := (collect fun_).
  Notation nonPure := (getNonPureVirtualVFTEntry fun_).

  Lemma collect_In p i c ts f : In f (collect p i c ts) <-> exists t, In t ts /\ nonPure p t i c = Some f.
  Proof.
    unfold ResolverModel.collect.
    assert (G : forall s, In f (fold_left (fun s t => match nonPure p t i c with Some f => sinsert f s | None => s end) ts s)
      <-> In f s \/ exists t, In t ts /\ nonPure p t i c = Some f).
    { induction ts as [|t ts IH]; intros s; cbn [fold_left].
      - split; [auto|intros [H|[t [[] _]]]; exact H].
      - rewrite IH. destruct (nonPure p t i c) as [g|] eqn:E.
        + rewrite In_sinsert. split.
          * intros [[-> |H]|[u [U1 U2]]]; [right; exists t; split; [now left|exact E]|auto|right; exists u; split; [now right|exact U2]].
          * intros [H|[u [[<-|U1] U2]]]; [auto|left; left; congruence|right; exists u; auto].
        + split.
          * intros [H|[u [U1 U2]]]; [auto|right; exists u; split; [now right|exact U2]].
          * intros [H|[u [[<-|U1] U2]]]; [auto|congruence|right; exists u; auto]. }
    rewrite G. split; [intros [[]|H]; exact H|auto].
  Qed.

  Lemma collect_NoDup p i c ts : NoDup (collect p i c ts).
  Proof.
    unfold ResolverModel.collect. assert (G : forall s, NoDup s -> NoDup (fold_left (fun s t => match nonPure p t i c with Some f => sinsert f s | None => s end) ts s)).
    { induction ts as [|t ts IH]; intros s H; cbn [fold_left]; [exact H|]. apply IH. destruct (nonPure p t i c); [now apply NoDup_sinsert|exact H]. }
    apply G. constructor.
  Qed.

  Lemma nonPure_iff p t i c f : nonPure p t i c = Some f <->
    exists v, afind t p = Some v /\ nth_error v i = Some (Some f) /\ fnName (fun_ f) <> "__cxa_pure_virtual"%string /\ invokes c (fun_ f).
  Proof.
    unfold ResolverModel.getNonPureVirtualVFTEntry, getVFTableOrNull, getFunction. destruct (afind t p) as [v|]; [|split; [discriminate|intros [v [H _]]; discriminate]].
    destruct (nth_error v i) as [[g|]|] eqn:N.
    - destruct (negb (eqb (fnName (fun_ g)) "__cxa_pure_virtual"%string) && isConsistentCall c (fun_ g)) eqn:E.
      + apply andb_true_iff in E. destruct E as [E1 E2]. apply negb_true_iff in E1. apply eqb_false in E1. rewrite consistent_iff in E2.
        split.
        * intros H. injection H as <-. exists v. auto.
        * intros [w [W [X _]]]. injection W as <-. congruence.
      + split; [discriminate|]. intros [w [W [X [Y Z]]]]. injection W as <-. assert (g = f) by congruence. subst g.
        apply andb_false_iff in E. destruct E as [E|E].
        * apply negb_false_iff in E. apply eqb_eq in E. now elim Y.
        * apply consistent_iff in Z. congruence.
    - split; [discriminate|]. intros [w [W [X _]]]. injection W as <-. congruence.
    - split; [discriminate|]. intros [w [W [X _]]]. injection W as <-. congruence.
  Qed.

  (** the tables of a module *)
  Lemma tvMap_find gs n g : afind n (tvMap gs) = Some g -> In g gs /\ isVTable demangle (gName g) = true /\ clearTV demangle (gName g) = n.
  Proof.
    unfold ResolverModel.tvMap.
    assert (G : forall gs m0, afind n (fold_left (fun m g => if isVTable demangle (gName g) then
          (if mem (clearTV demangle (gName g)) (akeys m) then m else m ++ [(clearTV demangle (gName g), g)]) else m) gs m0) = Some g ->
        afind n m0 = Some g \/ (In g gs /\ isVTable demangle (gName g) = true /\ clearTV demangle (gName g) = n)).
    { clear gs. induction gs as [|x gs IH]; intros m0 H; cbn [fold_left] in H; [now left|].
      apply IH in H. destruct H as [H|[H1 H2]]; [|right; split; [now right|exact H2]].
      destruct (isVTable demangle (gName x)) eqn:V; [|now left].
      destruct (mem (clearTV demangle (gName x)) (akeys m0)) eqn:M; [now left|]. apply mem_false in M.
      assert (A : forall (k : string) (v : global) l, ~ In k (akeys l) -> aset k v l = l ++ [(k, v)]).
      { clear. induction l as [|[k' v'] l IH]; intros H; cbn [aset]; [reflexivity|]. cbn [akeys map fst] in H.
        destruct (eq_dec k k') as [->|N]; [elim H; now left|]. cbn [app]. f_equal. apply IH. intros K. apply H. now right. }
      rewrite <- A in H by exact M. rewrite afind_aset in H. destruct (eq_dec n (clearTV demangle (gName x))) as [->|N]; [|now left].
      injection H as <-. right. split; [now left|auto]. }
    intros H. apply G in H. destruct H as [H|H]; [discriminate|exact H].
  Qed.

  Lemma tvMap_has gs g : In g gs -> isVTable demangle (gName g) = true -> exists g', afind (clearTV demangle (gName g)) (tvMap gs) = Some g'.
  Proof.
    intros Hg HV. unfold ResolverModel.tvMap.
    assert (G : forall gs m0, In g gs \/ In (clearTV demangle (gName g)) (akeys m0) ->
        In (clearTV demangle (gName g)) (akeys (fold_left (fun m g => if isVTable demangle (gName g) then
          (if mem (clearTV demangle (gName g)) (akeys m) then m else m ++ [(clearTV demangle (gName g), g)]) else m) gs m0))).
    { clear Hg gs. induction gs as [|x gs IH]; intros m0 H; cbn [fold_left]; [destruct H as [[]|H]; exact H|]. apply IH.
      destruct H as [[-> |H]|H]; [|now left|].
      - right. rewrite HV. destruct (mem (clearTV demangle (gName g)) (akeys m0)) eqn:M; [now apply mem_true|].
        unfold akeys. rewrite map_app. apply in_or_app. right. now left.
      - right. destruct (isVTable demangle (gName x)); [|exact H]. destruct (mem _ _); [exact H|].
        unfold akeys. rewrite map_app. apply in_or_app. now left. }
    destruct (afind (clearTV demangle (gName g)) (fold_left (fun m g => if isVTable demangle (gName g) then
          (if mem (clearTV demangle (gName g)) (akeys m) then m else m ++ [(clearTV demangle (gName g), g)]) else m) gs [])) eqn:E; [eauto|].
    apply afind_None in E. elim E. apply G. now left.
  Qed.

  Lemma addTables_ok tv ts p0 p : addTables nm tv ts p0 = Some p ->
    forall t, afind t p = match afind t p0 with Some v => Some v | None => if mem t ts then getVirtualFunctions tv t else None end.
  Proof.
    revert p0. induction ts as [|u ts IH]; intros p0 H t; cbn [addTables] in H.
    - injection H as <-. destruct (afind t p0); reflexivity.
    - destruct (getVirtualFunctions tv u) as [v|] eqn:E; [|discriminate]. rewrite (IH _ H). clear IH H.
      assert (MC : mem t (u :: ts) = (eqb t u || mem t ts)).
      { destruct (mem t (u :: ts)) eqn:M.
        - apply mem_true in M. destruct M as [-> |M]; [now rewrite eqb_refl|]. apply mem_true in M. rewrite M. now rewrite orb_true_r.
        - apply mem_false in M. destruct (eqb t u) eqn:Q; [apply eqb_eq in Q; subst; elim M; now left|].
          cbn. symmetry. apply mem_false. intros K. apply M. now right. }
      rewrite MC. destruct (mem u (akeys p0)) eqn:M.
      + destruct (afind t p0) eqn:F; [reflexivity|]. destruct (eqb t u) eqn:Q; [|reflexivity].
        apply eqb_eq in Q. subst t. apply mem_true in M. apply afind_None in F. now elim F.
      + apply mem_false in M.
        assert (A : afind t (p0 ++ [(u, v)]) = match afind t p0 with Some w => Some w | None => if eqb t u then Some v else None end).
        { clear. induction p0 as [|[a b] p0 IH]; cbn [app afind].
          - unfold eqb. destruct (eq_dec t u); reflexivity.
          - destruct (eq_dec t a); [reflexivity|exact IH]. }
        rewrite A. destruct (afind t p0) eqn:F; [reflexivity|]. destruct (eqb t u) eqn:Q; [|reflexivity].
        apply eqb_eq in Q. subst t. now rewrite E.
  Qed.

  Lemma vtp_find m p t : makeVTP m = Some p -> afind t p = if mem t (mTypes m) then getVirtualFunctions (tvMap (mGlobals m)) t else None.
  Proof. intros H. rewrite (addTables_ok _ _ _ _ H t). reflexivity. Qed.

  Lemma vfVector_groups gs : vfVector (map OArray gs) = if forallb (fun g => 2 <=? length g) gs then Some (flat_map (fun g => map entry (skipn 2 g)) gs) else None.
  Proof.
    induction gs as [|g gs IH]; [reflexivity|]. destruct g as [|a [|b l]]; [reflexivity|reflexivity|].
    cbn [map vfVector forallb length Nat.leb andb flat_map skipn]. rewrite IH. destruct (forallb _ gs); reflexivity.
  Qed.

  Lemma vfVector_primary ops g rest : ops = map OArray (g :: rest) -> forall v, vfVector ops = Some v ->
    forall k f n, nth_error g (2 + k) = Some (EBitCast n) -> denotes n f -> nth_error v k = Some (Some f).
  Proof.
    intros -> v H k f n N De. assert (A : aliasee n = Some f) by (clear N; induction De; [reflexivity|exact IHDe]). rewrite vfVector_groups in H. destruct (forallb _ _); [|discriminate]. injection H as <-.
    destruct g as [|a [|b l]]; [discriminate|destruct k; discriminate|]. cbn [flat_map skipn Nat.add nth_error] in *.
    rewrite nth_error_app1 by (rewrite map_length; apply nth_error_Some; congruence).
    rewrite nth_error_map, N. cbn [option_map entry]. now rewrite A.
  Qed.

  Lemma vtp_primary m vcls p d k f : vnamed nm demangle m vcls -> makeVTP m = Some p -> In d (mTypes m) ->
    dispatches m vcls d 0 2 k f -> exists v, afind d p = Some v /\ nth_error v k = Some (Some f).
  Proof.
    intros [V1 V2 V3] MV Hd [groups [l [n [[g [Hg [Cg Ig]]] [Ng Nl]]]]].
    rewrite (vtp_find _ _ _ MV). rewrite (proj2 (mem_true d (mTypes m)) Hd).
    destruct (V2 _ _ Cg) as [Pg Eg].
    assert (IV : isVTable demangle (gName g) = true) by (unfold isVTable; change VTablePrefix with "_ZTV"%string; now rewrite Pg).
    destruct (tvMap_has (mGlobals m) g Hg IV) as [g' F]. destruct (tvMap_find _ _ _ F) as [F1 [F2 F3]].
    assert (g' = g) by (apply V3; auto). subst g'.
    unfold ResolverModel.getVirtualFunctions. unfold clearTV in F. rewrite Eg in F. unfold clearType. rewrite F, Ig.
    assert (T : exists v, vfVector (map OArray groups) = Some v).
    { assert (X : forall t, In t (mTypes m) -> getVirtualFunctions (tvMap (mGlobals m)) t <> None).
      { clear - MV. unfold ResolverModel.makeVTP in MV. revert MV. generalize (@nil (nat * vtable)) as p0. induction (mTypes m) as [|u ts IH]; intros p0 MV t Ht; [destruct Ht|].
        cbn [addTables] in MV. destruct (getVirtualFunctions (tvMap (mGlobals m)) u) eqn:E; [|discriminate].
        destruct Ht as [-> |Ht]; [congruence|]. eapply IH; eauto. }
      specialize (X d Hd). unfold ResolverModel.getVirtualFunctions, clearType in X. rewrite F, Ig in X.
      destruct (vfVector (map OArray groups)); [eauto|now elim X]. }
    destruct T as [v T]. exists v. split; [exact T|].
    destruct groups as [|g0 rest]; [discriminate|]. cbn in Ng. injection Ng as ->.
    destruct Nl as [Nl De].
    exact (vfVector_primary _ l rest eq_refl v T k f n Nl De).
  Qed.

  Lemma makeVTP_total m : (forall g ops l, In g (mGlobals m) -> gInit g = IStruct ops -> In (OArray l) ops -> 2 <= length l) ->
    exists p, makeVTP m = Some p.
  Proof.
    intros H.
    assert (V : forall ops, (forall l, In (OArray l) ops -> 2 <= length l) -> exists v, vfVector ops = Some v).
    { clear. induction ops as [|o ops IH]; intros H; cbn [vfVector]; [eauto|].
      destruct IH as [v IH]; [intros l L; apply H; now right|]. destruct o as [e|[|a [|b l]]].
      - eauto.
      - specialize (H [] (or_introl eq_refl)). cbn in H. lia.
      - specialize (H [a] (or_introl eq_refl)). cbn in H. lia.
      - rewrite IH. eauto. }
    unfold ResolverModel.makeVTP. generalize (@nil (nat * vtable)) as p0. induction (mTypes m) as [|t ts IH]; intros p0; cbn [addTables]; [eauto|].
    assert (G : exists v, getVirtualFunctions (tvMap (mGlobals m)) t = Some v).
    { unfold ResolverModel.getVirtualFunctions. destruct (afind (clearType nm t) (tvMap (mGlobals m))) as [g|] eqn:F; [|eauto].
      apply tvMap_find in F. destruct F as [F _]. destruct (gInit g) as [|ops|] eqn:I; [eauto| |eauto]. apply V. intros l L. eapply H; eauto. }
    destruct G as [v ->]. apply IH.
  Qed.

  Lemma fp_In fs c f : In f (functionPointer fun_ fs c) <-> In f fs /\ fnAddressTaken (fun_ f) = true /\ invokes c (fun_ f).
  Proof.
    unfold functionPointer.
    assert (G : forall s, In f (fold_left (fun s f => if fnAddressTaken (fun_ f) && isConsistentCall c (fun_ f) then sinsert f s else s) fs s)
      <-> In f s \/ (In f fs /\ fnAddressTaken (fun_ f) = true /\ invokes c (fun_ f))).
    { induction fs as [|g fs IH]; intros s; cbn [fold_left].
      - cbn. tauto.
      - rewrite IH. cbn [In]. destruct (fnAddressTaken (fun_ g) && isConsistentCall c (fun_ g)) eqn:E.
        + apply andb_true_iff in E. destruct E as [E1 E2]. apply consistent_iff in E2. rewrite In_sinsert. split.
          * intros [[-> |H]|H]; [right; auto|auto|tauto].
          * intros [H|[[<-|H] K]]; tauto.
        + split; [tauto|]. intros [H|[[<-|H] [K1 K2]]]; [auto| |auto]. apply consistent_iff in K2. rewrite K1, K2 in E. discriminate. }
    rewrite G. cbn. tauto.
  Qed.
End P.
