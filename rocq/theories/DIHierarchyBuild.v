(** The hierarchy that the constructor builds, and reading it back. *)
From Coq Require Import String List Bool Arith Lia Relations.
From Verif Require Import Assoc DIHierarchyModel DIHierarchySpec DIHierarchyProofs.
Import ListNotations.
#[local] Existing Instance EqDec_diname.

(** ** Tables *)
Lemma store_length v i f : length (store v i f) = length v.
Proof. revert i. induction v as [|x v IH]; intros [|i]; cbn; try reflexivity. rewrite IH. reflexivity. Qed.
Lemma store_nth v i f j : i < length v -> nth j (store v i f) None = if j =? i then f else nth j v None.
Proof.
  revert i j. induction v as [|x v IH]; intros i j L; [cbn in L; lia|]. destruct i as [|i]; cbn [store].
  - destruct j; reflexivity.
  - destruct j as [|j]; [reflexivity|]. cbn [nth Nat.eqb]. apply IH. cbn in L. lia.
Qed.
Lemma resize_length v n : length (resize v n) = n.
Proof. unfold resize. rewrite app_length, firstn_length, repeat_length. lia. Qed.
Lemma resize_nth v n j : length v <= n -> nth j (resize v n) None = nth j v None.
Proof.
  intros L. unfold resize. rewrite firstn_all2 by exact L. destruct (Nat.lt_ge_cases j (length v)) as [I|I].
  - rewrite app_nth1 by exact I. reflexivity.
  - rewrite app_nth2 by exact I. rewrite (nth_overflow v) by exact I.
    destruct (Nat.lt_ge_cases (j - length v) (n - length v)) as [J|J].
    + apply nth_repeat.
    + apply nth_overflow. rewrite repeat_length. exact J.
Qed.
Lemma put_nth vt i fn j :
  nth j (if length vt =? i then vt ++ [Some fn]
         else store (if length vt <? i then resize vt (i + 1) else vt) i (Some fn)) None
  = if j =? i then Some fn else nth j vt None.
Proof.
  destruct (Nat.eqb_spec (length vt) i) as [E|E].
  - destruct (Nat.eqb_spec j i) as [->|J].
    + subst i. rewrite app_nth2, Nat.sub_diag by lia. reflexivity.
    + destruct (Nat.lt_ge_cases j (length vt)) as [I|I]; [rewrite app_nth1 by exact I; reflexivity|].
      rewrite (nth_overflow vt) by exact I. apply nth_overflow. rewrite app_length. cbn. lia.
  - destruct (Nat.ltb_spec (length vt) i) as [Lt|Ge].
    + rewrite store_nth by (rewrite resize_length; lia). destruct (j =? i); [reflexivity|]. apply resize_nth. lia.
    + apply store_nth. lia.
Qed.
Lemma getFunction_some m n : In n (mFuns m) -> getFunction m n = Some n.
Proof.
  intros I. unfold getFunction. replace (existsb (String.eqb n) (mFuns m)) with true; [reflexivity|].
  symmetry. apply existsb_exists. exists n. split; [exact I|apply String.eqb_refl].
Qed.
Lemma getFunction_inv m n f : getFunction m n = Some f -> f = n /\ In n (mFuns m).
Proof.
  unfold getFunction. destruct (existsb (String.eqb n) (mFuns m)) eqn:E; [|discriminate]. intros [= <-]. split; [reflexivity|].
  apply existsb_exists in E. destruct E as (x & I & X). apply String.eqb_eq in X. subst. exact I.
Qed.
Lemma declares_dec m t i s : {declares m t i s} + {~ declares m t i s}.
Proof.
  unfold declares. destruct (sVirtual s); [|right; intros (X & _); discriminate].
  destruct (sScope s) as [p|]; [|right; intros (_ & X & _); discriminate].
  destruct (Nat.eq_dec p t) as [->|Y]; [|right; intros (_ & X & _); congruence].
  destruct (Nat.eq_dec (sIndex s) i) as [->|Y]; [|right; intros (_ & _ & X & _); contradiction].
  destruct (in_dec string_dec (sLinkage s) (mFuns m)) as [Y|Y]; [left; auto|right; intros (_ & _ & _ & X); contradiction].
Qed.
Lemma lastDeclared_snoc m l s t i f : lastDeclared m (l ++ [s]) t i f <->
  (declares m t i s /\ f = sLinkage s) \/ (~ declares m t i s /\ lastDeclared m l t i f).
Proof.
  split.
  - intros (l1 & s' & l2 & E & D & F & N). destruct l2 as [|x l2 _] using rev_ind.
    + apply app_inj_tail in E. destruct E as [-> ->]. left. split; [exact D|congruence].
    + rewrite app_comm_cons, app_assoc in E. apply app_inj_tail in E. destruct E as [-> ->]. right. split.
      * apply N. apply in_or_app. right. left. reflexivity.
      * exists l1, s', l2. repeat split; try assumption; try apply D. intros u I. apply N. apply in_or_app. left. exact I.
  - intros [(D & ->)|(D & l1 & s' & l2 & -> & E & F & N)].
    + exists l, s, []. repeat split; try apply D. intros u [].
    + exists l1, s', (l2 ++ [s]). split; [rewrite <- app_assoc; reflexivity|]. split; [exact E|]. split; [exact F|].
      intros u I. apply in_app_iff in I. destruct I as [I|[<-|[]]]; [apply N, I|exact D].
Qed.
Lemma buildVTables_nth m tv : (forall t u i, afind t tv = Some i -> afind u tv = Some i -> t = u) ->
  forall l t v i f, afind t tv = Some v ->
  (nth i (fold_left (addFunction m tv) l (fun _ => []) v) None = Some f <-> lastDeclared m l t i f).
Proof.
  intros Inj. induction l as [|s l IH] using rev_ind; intros t v i f T.
  - cbn. split; [destruct i; discriminate|]. intros (l1 & s & l2 & E & _). destruct l1; discriminate.
  - rewrite fold_left_app. cbn [fold_left]. set (V := fold_left _ l _) in *. rewrite lastDeclared_snoc, <- (IH t v i f T).
    unfold addFunction. destruct (sVirtual s) eqn:EV; cbn [negb].
    2:{ split; [intros X; right; split; [|exact X]|intros [[D _]|[_ X]]; [|exact X]]; unfold declares in *; [intros (Y & _)|destruct D as (Y & _)]; congruence. }
    destruct (sScope s) as [p|] eqn:ES.
    2:{ split; [intros X; right; split; [|exact X]|intros [[D _]|[_ X]]; [|exact X]]; unfold declares in *; [intros (_ & Y & _)|destruct D as (_ & Y & _)]; congruence. }
    destruct (afind p tv) as [idx|] eqn:EP.
    2:{ assert (N : ~ declares m t i s) by (intros (_ & Y & _); congruence).
        split; [intros X; right; split; [exact N|exact X]|intros [[D _]|[_ X]]; [contradiction|exact X]]. }
    destruct (getFunction m (sLinkage s)) as [fn|] eqn:EF.
    2:{ assert (N : ~ declares m t i s) by (intros (_ & _ & _ & Y); apply getFunction_some in Y; congruence).
        split; [intros X; right; split; [exact N|exact X]|intros [[D _]|[_ X]]; [contradiction|exact X]]. }
    apply getFunction_inv in EF. destruct EF as [-> EF].
    cbv zeta.
    assert (Q : nth i ((if length (V idx) =? sIndex s then upd V idx (V idx ++ [Some (sLinkage s)])
                else upd V idx (store (if length (V idx) <? sIndex s then resize (V idx) (sIndex s + 1) else V idx) (sIndex s) (Some (sLinkage s)))) v) None
              = if (v =? idx) && (i =? sIndex s) then Some (sLinkage s) else nth i (V v) None).
    { destruct (Nat.eqb_spec v idx) as [->|Y]; cbn [andb].
      - rewrite <- put_nth. destruct (length (V idx) =? sIndex s); rewrite upd_same; reflexivity.
      - destruct (length (V idx) =? sIndex s); rewrite upd_other by exact Y; reflexivity. }
    rewrite Q. destruct (declares_dec m t i s) as [D|D].
    + destruct D as (_ & D1 & D2 & D3). assert (p = t) by congruence. subst p. assert (v = idx) by congruence. subst v.
      rewrite D2, !Nat.eqb_refl. cbn [andb]. split.
      * intros [= <-]. left. split; [|reflexivity]. repeat split; congruence.
      * intros [[_ ->]|[N _]]; [reflexivity|]. exfalso. apply N. repeat split; congruence.
    + replace ((v =? idx) && (i =? sIndex s)) with false.
      2:{ symmetry. apply andb_false_iff. destruct (Nat.eqb_spec v idx) as [->|Y]; [right|left; reflexivity].
          apply Nat.eqb_neq. intros ->. apply D. pose proof (Inj _ _ _ T EP). subst p. repeat split; assumption. }
      split; [intros X; right; split; assumption|intros [[N _]|[_ X]]; [contradiction|exact X]].
Qed.

(** ** The constructor *)
Section B.
  Variable m : modul.
  Hypothesis WF : wellFormed m.
  Hypothesis NM : named m.
  Let cl := classes m.

  Lemma base_elements b d : base m b d <-> isClass m d /\ exists r, In (Inherits r) (elementsOf (mTy m d)) /\ strip r = b.
  Proof.
    unfold base. split.
    - intros (C & tag & n & i & es & r & E & I & N). split; [exact C|]. exists r. rewrite E. split; [exact I|apply strip_names, N].
    - intros (C & r & I & <-). split; [exact C|]. destruct (mTy m d) as [tag n i es|n] eqn:E; [|destruct I].
      exists tag, n, i, es, r. repeat split; [exact I|apply strip_names; reflexivity].
  Qed.
  Lemma maxRank (rank : nat -> nat) (l : list nat) : exists M, forall t, In t l -> rank t < M.
  Proof.
    induction l as [|a l (M & H)]; [exists 0; intros t []|]. exists (S (rank a) + M). intros t [<-|I]; [lia|]. apply H in I. lia.
  Qed.

  Theorem build_ok : exists n h tv,
    (forall fuel, n < fuel -> build fuel m = Some h) /\ (forall fuel h', build fuel m = Some h' -> h' = h) /\
    fold_left (addV m) cl ([], [], []) = (tv, cl, NameToType h) /\ TypeToVertex h = tv /\ VertexTypes h = cl /\
    length (TransitiveDerivedIndex h) = length cl /\
    (forall i t, nth_error cl i = Some t -> exists seg, subTypesOfIdx h i = t :: seg /\
        (forall x, In x (t :: seg) <-> derives m t x) /\ ~ In t seg) /\
    VTables h = map (buildVTables m tv) (seq 0 (length cl)) /\
    (forall x, In x (Hierarchy h) -> isClass m x).
  Proof.
    destruct WF as [Once Closed (rank & Order)].
    pose proof (collectTypes_ok m Once NM) as CT. fold cl in CT.
    assert (VO : vertsOk m (fold_left (addV m) cl ([], [], [])) cl).
    { apply (addV_fold m cl _ []); [apply vertsOk_nil|]. apply classes_nodup, Once. }
    destruct (fold_left (addV m) cl ([], [], [])) as [[tv vt] nt] eqn:EF. destruct VO as (-> & TV & LT & NT).
    assert (Find : forall t, isClass m t -> exists i, afind t tv = Some i).
    { intros t C. apply classes_in in C. apply In_nth_error in C. destruct C as (i & E). exists i. apply TV, E. }
    destruct (composites_fold m tv cl (mkTG (fun _ => true) (fun _ => []))) as (tg & G & Rt & De).
    { intros t I. apply classes_in in I. split.
      - destruct (Find t I) as (i & ->). discriminate.
      - intros r J. destruct (Find (strip r)) as (i & E).
        + apply (Closed _ t). apply base_elements. split; [exact I|]. exists r. split; [exact J|reflexivity].
        + rewrite E. discriminate. }
    assert (Edge : forall b d, edge (DerivedTypesOf tg) b d <->
              exists tb td, nth_error cl b = Some tb /\ nth_error cl d = Some td /\ base m tb td).
    { intros b d. unfold edge. rewrite De. cbn [DerivedTypesOf In]. split.
      - intros [[]|(t & r & I & J & K & L)]. exists (strip r), t. split; [apply TV, L|]. split; [apply TV, J|].
        apply base_elements. split; [apply classes_in, I|]. exists r. split; [exact K|reflexivity].
      - intros (tb & td & B & D & X). right. apply base_elements in X. destruct X as (C & r & I & <-).
        exists td, r. repeat split; [apply classes_in, C|apply TV, D|exact I|apply TV, B]. }
    destruct (maxRank rank cl) as (M & HM).
    set (height := fun i => M - rank (nth i cl 0)).
    assert (NthD : forall i t, nth_error cl i = Some t -> nth i cl 0 = t) by (intros i t E; apply nth_error_nth with (d := 0) in E; exact E).
    assert (HO : forall b d, edge (DerivedTypesOf tg) b d -> height d < height b).
    { intros b d E. apply Edge in E. destruct E as (tb & td & B & D & X). unfold height.
      rewrite (NthD _ _ B), (NthD _ _ D). apply Order in X. apply nth_error_In in D. apply HM in D. lia. }
    assert (Desc1 : forall i x, desc (DerivedTypesOf tg) i x -> forall ti, nth_error cl i = Some ti ->
              exists tx, nth_error cl x = Some tx /\ derives m ti tx).
    { intros i x X. unfold desc in X. apply clos_rt_rt1n_iff in X. induction X as [i|i j x E X IH]; intros ti Hi.
      - exists ti. split; [exact Hi|apply rt_refl].
      - apply Edge in E. destruct E as (tb & td & B & D & Y). destruct (IH td D) as (tx & Hx & Z).
        exists tx. split; [exact Hx|]. eapply rt_trans; [apply rt_step|exact Z]. congruence. }
    assert (Desc2 : forall ti tx, derives m ti tx -> forall i, nth_error cl i = Some ti ->
              exists x, nth_error cl x = Some tx /\ desc (DerivedTypesOf tg) i x).
    { intros ti tx X. unfold derives in X. apply clos_rt_rt1n_iff in X. induction X as [t|ti tj tx E X IH]; intros i Hi.
      - exists i. split; [exact Hi|apply rt_refl].
      - pose proof E as E0. destruct E0 as (C & _). apply classes_in in C. apply In_nth_error in C. destruct C as (j & Hj).
        destruct (IH j Hj) as (x & Hx & Z). exists x. split; [exact Hx|]. eapply rt_trans; [apply rt_step|exact Z].
        apply Edge. exists ti, tj. auto. }
    assert (Root : forall i t, nth_error cl i = Some t -> exists r, In r (seq 0 (length cl)) /\ Roots tg r = true /\ desc (DerivedTypesOf tg) r i).
    { intros i t. remember (rank t) as k eqn:Hk. revert i t Hk. induction k as [k IH] using lt_wf_ind. intros i t -> Hi.
      assert (D : {r | In (Inherits r) (elementsOf (mTy m t))} + {forall r, ~ In (Inherits r) (elementsOf (mTy m t))}).
      { induction (elementsOf (mTy m t)) as [|e es [(r & J)|J]]; [right; intros r []|left; exists r; right; exact J|].
        destruct e as [r|]; [left; exists r; left; reflexivity|]. right. intros r [K|K]; [discriminate|eapply J, K]. }
      destruct D as [(r & J)|J].
      - assert (B : base m (strip r) t).
        { apply base_elements. split; [apply classes_in; eapply nth_error_In, Hi|]. exists r. split; [exact J|reflexivity]. }
        pose proof (Closed _ _ B) as C. apply classes_in in C. apply In_nth_error in C. destruct C as (j & Hj).
        destruct (IH (rank (strip r)) (Order _ _ B) j (strip r) eq_refl Hj) as (q & I & R & X).
        exists q. split; [exact I|]. split; [exact R|]. eapply rt_trans; [exact X|]. apply rt_step, Edge. exists (strip r), t. auto.
      - exists i. split; [|split; [|apply rt_refl]].
        + apply in_seq. assert (i < length cl) by (apply nth_error_Some; congruence). lia.
        + apply Rt. split; [reflexivity|]. intros u r I K. apply TV in K. assert (u = t) by congruence. subst u. apply J. }
    destruct (rootLoop_ok (DerivedTypesOf tg) height HO (Roots tg) (seq 0 (length cl)) (mkD (fun _ => false) (fun _ => (0, 0)) []) (fun _ => eq_refl))
      as (n & s & seg & (Lin & Pin & _ & Good & _) & V & W).
    cbn [Linear app] in Lin.
    exists n, (mkH nt tv cl (map (Index s) (seq 0 (length cl))) (map (fun i => nth i cl 0) (Linear s))
                   (map (buildVTables m tv) (seq 0 (length cl)))), tv.
    assert (BG : buildTypeGraph m tv cl = Some tg) by exact G.
    split; [|split; [|split; [reflexivity|split; [reflexivity|split; [reflexivity|split; [|split; [|split]]]]]]].
    - intros fuel Lf. unfold build. rewrite CT, BG.
      replace (linearise fuel tg (length cl)) with (Some s); [reflexivity|]. symmetry. apply (V fuel Lf).
    - intros fuel h' B. unfold build in B. rewrite CT, BG in B. destruct (linearise fuel tg (length cl)) as [s'|] eqn:E; [|discriminate].
      apply (W fuel) in E. subst s'. congruence.
    - cbn [TransitiveDerivedIndex]. rewrite map_length, seq_length. reflexivity.
    - intros i t Hi. destruct (Good i) as (pre & sg & post & E & P1 & P2 & P3 & P4); [apply (Root i t Hi)|].
      exists (map (fun i => nth i cl 0) sg).
      assert (Ti : nth i cl 0 = t) by (apply NthD, Hi).
      assert (Li : i < length cl) by (apply nth_error_Some; congruence).
      assert (EI : nth i (map (Index s) (seq 0 (length cl))) (0, 0) = Index s i).
      { rewrite (nth_indep _ (0, 0) (Index s 0)) by (rewrite map_length, seq_length; exact Li).
        rewrite map_nth, seq_nth by exact Li. reflexivity. }
      split; [|split].
      + unfold subTypesOfIdx. cbn [TransitiveDerivedIndex Hierarchy]. rewrite EI. destruct (Index s i) as [a b]. cbn [fst snd] in P1, P2. subst a b.
        replace (length pre + length (i :: sg) - length pre) with (length (i :: sg)) by lia.
        rewrite E, !map_app, skipn_app, map_length, Nat.sub_diag, skipn_all2 by (rewrite map_length; lia). cbn [skipn app].
        rewrite firstn_app, map_length, Nat.sub_diag, firstn_all2 by (rewrite map_length; lia). cbn [firstn].
        rewrite app_nil_r. cbn [map]. rewrite Ti. reflexivity.
      + intros x. rewrite <- Ti. change (nth i cl 0 :: map (fun i => nth i cl 0) sg) with (map (fun i => nth i cl 0) (i :: sg)).
        rewrite in_map_iff, Ti. split.
        * intros (j & <- & J). apply P3 in J. destruct (Desc1 _ _ J t Hi) as (tx & Hx & X). rewrite (NthD _ _ Hx). exact X.
        * intros X. destruct (Desc2 _ _ X i Hi) as (j & Hj & J). exists j. split; [apply NthD, Hj|apply P3, J].
      + intros I. apply in_map_iff in I. destruct I as (j & Ej & J).
        assert (Dj : desc (DerivedTypesOf tg) i j) by (apply P3; right; exact J).
        destruct (Desc1 _ _ Dj t Hi) as (tx & Hx & _). rewrite (NthD _ _ Hx) in Ej. subst tx.
        assert (j = i). { apply (proj1 (NoDup_nth_error cl) (classes_nodup m Once)); [apply nth_error_Some; congruence|congruence]. }
        subst j. contradiction.
    - reflexivity.
    - cbn [Hierarchy]. intros x I. apply in_map_iff in I. destruct I as (j & <- & J). rewrite Lin in J.
      apply Pin in J. destruct J as (r & I & _ & X). apply in_seq in I.
      destruct (nth_error cl r) as [tr|] eqn:Hr; [|apply nth_error_None in Hr; lia].
      destruct (Desc1 _ _ X tr Hr) as (tx & Hx & _). rewrite (NthD _ _ Hx). apply classes_in. eapply nth_error_In, Hx.
  Qed.
End B.

(** ** Reading back *)
Lemma findComposite_ok m t : named m -> unique m -> NoDup (mTypes m) -> isClass m t ->
  findComposite m (getTypeName (mTy m t)) None false (mTypes m) = Some t.
Proof.
  intros NM U Once C. pose proof (proj1 C) as I. pose proof (NM t C) as K. set (k := getTypeName (mTy m t)).
  assert (Kk : key (mTy m t) = k) by apply key_getTypeName. rewrite Kk in K.
  assert (Miss : forall l byName uniq, (forall s, In s l -> In s (mTypes m) /\ s <> t) -> forall l',
      findComposite m k byName uniq (l ++ l') = findComposite m k byName uniq l').
  { induction l as [|s l IH]; intros byName uniq H l'; [reflexivity|]. cbn [app findComposite].
    destruct (H s (or_introl eq_refl)) as [Is Ns].
    destruct (mTy m s) as [tag n i es|n] eqn:E.
    - destruct (u_keys m U t s tag n i es C Is Ns E) as [X Y]. rewrite Kk in X, Y.
      apply String.eqb_neq in X. apply String.eqb_neq in Y. rewrite X, Y. apply IH. intros u J. apply H. right. exact J.
    - apply IH. intros u J. apply H. right. exact J. }
  destruct (in_split _ _ I) as (l1 & l2 & E). rewrite E in Once. pose proof (NoDup_remove_2 _ _ _ Once) as N.
  assert (In1 : forall s, In s l1 -> In s (mTypes m) /\ s <> t).
  { intros s J. split; [rewrite E; apply in_or_app; left; exact J|]. intros ->. apply N. apply in_or_app. left. exact J. }
  assert (In2 : forall s, In s l2 -> In s (mTypes m) /\ s <> t).
  { intros s J. split; [rewrite E; apply in_or_app; right; right; exact J|]. intros ->. apply N. apply in_or_app. right. exact J. }
  rewrite E at 1. rewrite (Miss l1 None false In1). cbn [findComposite].
  destruct C as (_ & tag & n & i & es & Et & Tg). rewrite Et. destruct (String.eqb_spec i k) as [|Y]; [reflexivity|].
  assert (n = k). { unfold k. rewrite Et. cbn [getTypeName]. destruct (String.eqb_spec i "") as [|Z]; [reflexivity|].
    exfalso. apply Y. unfold k. rewrite Et. cbn [getTypeName]. apply String.eqb_neq in Z. rewrite Z. reflexivity. }
  subst n. rewrite String.eqb_refl. rewrite <- (app_nil_r l2) at 1. rewrite (Miss l2 _ _ In2). reflexivity.
Qed.
Lemma loadType_fold m l x : (forall t, In t l -> findComposite m (getTypeName (mTy m t)) None false (mTypes m) = Some t) ->
  fold_left (loadType m) (map (fun t => getTypeName (mTy m t)) l) (Some x) = Some (fold_left (addV m) l x).
Proof.
  revert x. induction l as [|t l IH]; intros [[tv vt] nt] H; [reflexivity|]. cbn [map fold_left]. unfold loadType at 2.
  rewrite (H t (or_introl eq_refl)). apply IH. intros u I. apply H. right. exact I.
Qed.
Lemma stringToDIType_ok m t : unique m -> isClass m t -> stringToDIType m (getName (mTy m t)) = Some t.
Proof.
  intros U C. pose proof (proj1 C) as I. unfold stringToDIType.
  assert (H : forall s, In s (mTypes m) -> String.eqb (getName (mTy m s)) (getName (mTy m t)) = true -> s = t).
  { intros s J X. destruct (Nat.eq_dec s t) as [|Y]; [assumption|]. exfalso.
    apply String.eqb_eq in X. rewrite <- !tyName_getName in X. exact (u_names m U t s C J Y X). }
  induction (mTypes m) as [|s l IH]; [destruct I|]. cbn [find].
  destruct (String.eqb (getName (mTy m s)) (getName (mTy m t))) eqn:E.
  - f_equal. apply H; [left; reflexivity|exact E].
  - apply IH; [|intros u J; apply H; right; exact J]. destruct I as [->|I]; [rewrite String.eqb_refl in E; discriminate|exact I].
Qed.
Lemma loadHierarchy_ok m l : unique m -> (forall x, In x l -> isClass m x) ->
  loadHierarchy m (map (fun t => getName (mTy m t)) l) = Some l.
Proof.
  intros U. induction l as [|t l IH]; intros H; [reflexivity|]. cbn [map loadHierarchy].
  rewrite (stringToDIType_ok m t U (H t (or_introl eq_refl))), IH; [reflexivity|]. intros x I. apply H. right. exact I.
Qed.
Lemma loadVTable_ok m l : (forall f, In f l -> exists n, f = Some n /\ n <> NullFunName /\ In n (mFuns m)) ->
  loadVTable m (map (fun f => match f with Some n => n | None => NullFunName end) l) = l.
Proof.
  induction l as [|f l IH]; intros H; [reflexivity|]. unfold loadVTable in *. cbn [map flat_map].
  destruct (H f (or_introl eq_refl)) as (n & -> & N & I). apply String.eqb_neq in N. rewrite N, (getFunction_some m n I).
  cbn [app]. f_equal. apply IH. intros g J. apply H. right. exact J.
Qed.

(** ** Checking concrete modules *)
Definition okBase (m : modul) (rank : nat -> nat) (d : nat) (e : elem) : bool :=
  match e with
  | Member => true
  | Inherits r => existsb (Nat.eqb (strip r)) (mTypes m) && classb m (strip r) && (rank (strip r) <? rank d)
  end.
Definition wfb (m : modul) (rank : nat -> nat) : bool :=
  forallb (fun d => if classb m d then forallb (okBase m rank d) (elementsOf (mTy m d)) else true) (mTypes m).
Lemma wfb_ok m rank : NoDup (mTypes m) -> wfb m rank = true -> wellFormed m.
Proof.
  intros N W.
  assert (A : forall b d, base m b d -> isClass m b /\ rank b < rank d).
  { intros b d B. apply base_elements in B. destruct B as (C & r & I & <-). apply isClass_classb in C. destruct C as [Id Cd].
    unfold wfb in W. rewrite forallb_forall in W. specialize (W d Id). rewrite Cd in W. rewrite forallb_forall in W.
    specialize (W _ I). cbn [okBase] in W. apply andb_true_iff in W. destruct W as [W R]. apply andb_true_iff in W. destruct W as [E C].
    split; [|apply Nat.ltb_lt, R]. apply isClass_classb. split; [|exact C].
    apply existsb_exists in E. destruct E as (x & X & Y). apply Nat.eqb_eq in Y. subst. exact X. }
  split; [exact N| |exists rank]; intros b d B; apply A in B; tauto.
Qed.
Lemma namedb_ok m : forallb (fun t => if classb m t then negb (String.eqb (getTypeName (mTy m t)) ""%string) else true) (mTypes m) = true -> named m.
Proof.
  intros W t C. apply isClass_classb in C. destruct C as [I C]. rewrite forallb_forall in W. specialize (W t I). rewrite C in W.
  apply negb_true_iff, String.eqb_neq in W. rewrite key_getTypeName. exact W.
Qed.
