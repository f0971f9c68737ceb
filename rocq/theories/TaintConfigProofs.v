(** Proofs about taint configurations. *)
From Coq Require Import String Ascii List Bool Arith Lia.
From Verif Require Import Assoc TaintConfigModel TaintConfigSpec.
Import ListNotations.
#[local] Existing Instance EqDec_tcname.

Lemma isIn_in v l : isIn v l = true <-> In v l.
Proof.
  unfold isIn. rewrite existsb_exists. split.
  - intros (x & I & E). apply eqb_eq in E. subst. exact I.
  - intros I. exists v. split; [exact I|apply eqb_refl].
Qed.
Lemma has_addCat c v k k' x : has (addCat c v k) k' x <-> has c k' x \/ (k' = k /\ k <> CNone /\ x = v).
Proof.
  destruct k, k'; cbn; split; try tauto; try (intros [X|X]; [right; repeat split; congruence|left; exact X]);
    try (intros [X|(X & _)]; [tauto|discriminate]);
    try (intros [X|(_ & _ & ->)]; tauto).
Qed.
Lemma has_addCats c vs k k' x : has (addCats c vs k) k' x <-> has c k' x \/ (k' = k /\ k <> CNone /\ In x vs).
Proof.
  unfold addCats. revert c. induction vs as [|v vs IH]; intros c; cbn [fold_left In].
  - tauto.
  - rewrite IH, has_addCat. split; [intros [[X|(A & B & ->)]|(A & B & X)]|intros [X|(A & B & [<-|X])]]; auto 7.
Qed.

(** ** Functions *)
Section F.
  Variable m : modul.
  Lemma getFunction_in n f : getFunction m n = Some f -> In f (mFuncs m) /\ fnName f = n.
  Proof. intros E. apply find_some in E. destruct E as [I E]. apply String.eqb_eq in E. split; assumption. Qed.
  Lemma getFunction_find f : uniqueNames m -> In f (mFuncs m) -> getFunction m (fnName f) = Some f.
  Proof.
    unfold uniqueNames, getFunction. induction (mFuncs m) as [|g l IH]; cbn; intros N I; [destruct I|].
    inversion N; subst. destruct I as [->|I]; [rewrite String.eqb_refl; reflexivity|].
    destruct (String.eqb_spec (fnName g) (fnName f)) as [E|E]; [|apply IH; assumption].
    exfalso. apply H1. rewrite E. apply in_map, I.
  Qed.
  Definition standsb (name : string) (s : subprogram) : bool :=
    sDistinct s && negb (String.eqb (sLinkage s) "") && (String.eqb (sName s) name || String.eqb (sLinkage s) name).
  Lemma standsb_ok name s : standsb name s = true <-> stands name s.
  Proof.
    unfold standsb, stands. rewrite !andb_true_iff, negb_true_iff, orb_true_iff, String.eqb_neq, !String.eqb_eq. tauto.
  Qed.
  Lemma findDefs name : uniqueNames m -> unambiguous m name -> exists l, findAllFunctionDefs m name = Some l /\
    match l with
    | [] => forall f, ~ candidate m name f
    | Some fn :: _ => forall f, candidate m name f <-> f = fn
    | None :: _ => False
    end.
  Proof.
    intros U (One & There). unfold findAllFunctionDefs. fold (standsb name).
    set (ss := filter (standsb name) (mSubs m)).
    assert (S : forall s, In s ss <-> In s (mSubs m) /\ stands name s) by (intros s; unfold ss; rewrite filter_In, standsb_ok; reflexivity).
    change (filter (fun s => sDistinct s && negb (String.eqb (sLinkage s) "") && (String.eqb (sName s) name || String.eqb (sLinkage s) name)) (mSubs m)) with ss.
    assert (G : forall s, In s ss -> exists fn, getFunction m (sLinkage s) = Some fn).
    { intros s I. apply S in I. destruct (There s) as (fn & J & E); [apply I|apply I|]. exists fn. rewrite <- E. apply getFunction_find; assumption. }
    destruct ss as [|s ss'] eqn:Ess; cbn [map].
    - eexists. split; [reflexivity|].
      assert (No : forall s, In s (mSubs m) -> ~ stands name s) by (intros s I X; apply (proj2 (S s)); split; assumption).
      destruct (getFunction m name) as [f|] eqn:E.
      + intros f'. split.
        * intros (I & [(s & J & X & _)|(_ & N)]); [exfalso; exact (No s J X)|]. apply getFunction_find in I; [|exact U]. rewrite N in I. congruence.
        * intros ->. apply getFunction_in in E. destruct E as [I N]. split; [exact I|]. right. split; assumption.
      + intros f (I & [(s & J & X & _)|(_ & N)]); [exact (No s J X)|]. apply getFunction_find in I; [|exact U]. rewrite N in I. congruence.
    - destruct (G s (or_introl eq_refl)) as (fn & E).
      assert (L : exists l, match getFunction m (sLinkage s) :: map (fun s0 => getFunction m (sLinkage s0)) ss' with
         | [] => Some match getFunction m name with Some f => [Some f] | None => [] end
         | [_] => Some (getFunction m (sLinkage s) :: map (fun s0 => getFunction m (sLinkage s0)) ss')
         | _ => if forallb (fun f => match f with Some _ => true | None => false end)
                     (getFunction m (sLinkage s) :: map (fun s0 => getFunction m (sLinkage s0)) ss')
                then Some (getFunction m (sLinkage s) :: map (fun s0 => getFunction m (sLinkage s0)) ss') else None
         end = Some (Some fn :: l)).
      { exists (map (fun s0 => getFunction m (sLinkage s0)) ss').
        rewrite E. destruct ss' as [|s2 ss2]; [reflexivity|]. cbn [map].
        match goal with |- (if ?b then _ else _) = _ => replace b with true; [reflexivity|] end.
        symmetry. apply forallb_forall. intros f [<-|I]; [reflexivity|].
        change (In f (map (fun s0 => getFunction m (sLinkage s0)) (s2 :: ss2))) in I. apply in_map_iff in I.
        destruct I as (s3 & <- & I). destruct (G s3 (or_intror I)) as (x & ->). reflexivity. }
      destruct L as (l & L). exists (Some fn :: l). split; [exact L|].
      apply getFunction_in in E. destruct E as [Ifn Nfn]. pose proof (proj1 (S s) (or_introl eq_refl)) as [Is Ss].
      intros f. split.
      + intros (I & [(s' & J & X & N)|(No & _)]); [|exfalso; exact (No s Is Ss)].
        rewrite (One s' s J Is X Ss) in N. apply getFunction_find in I; [|exact U]. rewrite N, <- Nfn, getFunction_find in I; [congruence|exact U|exact Ifn].
      + intros ->. split; [exact Ifn|]. left. exists s. split; [exact Is|]. split; [exact Ss|exact Nfn].
  Qed.

  Lemma allInsts_in i : In i (allInsts m) <-> exists fn, In fn (mFuncs m) /\ In i (fnInsts fn).
  Proof. unfold allInsts. apply in_flat_map. Qed.
  Lemma users_calls f v : onlyCalled m f -> (In v (users m f) <-> exists n, v = VInst n /\ calls m n f).
  Proof.
    intros (C & O). unfold users. rewrite C, app_nil_r, in_map_iff. split.
    - intros (i & <- & I). apply filter_In in I. destruct I as [I U]. apply allInsts_in in I. destruct I as (fn & F & I).
      apply isIn_in in U. destruct (O fn i F I U) as (K & args & A & _). exists (iId i). split; [reflexivity|].
      exists fn, i, args. repeat split; assumption.
    - intros (n & -> & fn & i & args & F & I & <- & K & A). exists i. split; [reflexivity|]. apply filter_In. split.
      + apply allInsts_in. exists fn. split; assumption.
      + apply isIn_in. rewrite A. apply in_or_app. right. left. reflexivity.
  Qed.
  Lemma argsIn_in f l v : In v (argsIn f l) <-> exists i, v = VArg (fnName f) i /\ i < fnArgs f /\ In i l.
  Proof.
    unfold argsIn. rewrite in_map_iff. split.
    - intros (i & <- & I). apply filter_In in I. destruct I as [I L]. apply Nat.ltb_lt in L. exists i. auto.
    - intros (i & -> & L & I). exists i. split; [reflexivity|]. apply filter_In. split; [exact I|apply Nat.ltb_lt, L].
  Qed.
  Lemma params_in f v : In v (params f) <-> exists i, v = VArg (fnName f) i /\ i < fnArgs f.
  Proof.
    unfold params. rewrite in_map_iff. split.
    - intros (i & <- & I). apply in_seq in I. exists i. split; [reflexivity|lia].
    - intros (i & -> & L). exists i. split; [reflexivity|]. apply in_seq. lia.
  Qed.
  Lemma addFunction_ok c d : uniqueNames m -> unambiguous m (fdName d) ->
    (fdRet d <> CNone -> forall fn, candidate m (fdName d) fn -> onlyCalled m (fnName fn)) ->
    exists c', addFunction m (Some c) d = Some c' /\ forall k v, has c' k v <-> has c k v \/ marksFn m d k v.
  Proof.
    intros U A O. destruct (findDefs (fdName d) U A) as (l & E & L). unfold addFunction. rewrite E.
    destruct l as [|[fn|] l]; [| |destruct L].
    - exists c. split; [reflexivity|]. intros k v. split; [auto|]. intros [X|(fn & C & _)]; [exact X|exfalso; exact (L fn C)].
    - assert (C : candidate m (fdName d) fn) by (apply L; reflexivity).
      eexists. split; [reflexivity|]. intros k v. rewrite has_addCats, has_addCats.
      set (c1 := addCats (addCats c (argsIn fn (fdSource d)) CSource) (argsIn fn (fdSink d)) CSink).
      assert (S : has (if fdAllSink d then addCats c1 (map (VArg (fnName fn)) (seq 0 (fnArgs fn))) CSink else c1) k v <->
                  has c k v \/ (k = CSource /\ In v (argsIn fn (fdSource d))) \/ (k = CSink /\ In v (argsIn fn (fdSink d))) \/
                  (k = CSink /\ fdAllSink d = true /\ In v (params fn))).
      { destruct (fdAllSink d).
        - rewrite has_addCats. unfold c1. rewrite !has_addCats. fold (params fn).
          assert (CSource <> CNone /\ CSink <> CNone) as [? ?] by (split; discriminate). tauto.
        - unfold c1. rewrite !has_addCats. assert (CSource <> CNone /\ CSink <> CNone) as [? ?] by (split; discriminate).
          assert (false <> true) by discriminate. tauto. }
      rewrite S, !argsIn_in, params_in. clear S c1. unfold marksFn. split.
      + intros [[[X|[(-> & i & -> & Li & I)|[(-> & i & -> & Li & I)|(-> & Al & i & -> & Li)]]]|(-> & _ & i & -> & Li & I)]|(-> & N & I)].
        * left. exact X.
        * right. exists fn. split; [exact C|]. left. exists i. auto.
        * right. exists fn. split; [exact C|]. left. exists i. auto.
        * right. exists fn. split; [exact C|]. left. exists i. auto.
        * right. exists fn. split; [exact C|]. left. exists i. auto.
        * right. exists fn. split; [exact C|]. right. split; [reflexivity|]. split; [exact N|]. apply users_calls; [apply O; [exact N|exact C]|exact I].
      + intros [X|(fn' & C' & X)]; [auto|]. apply L in C'. subst fn'. destruct X as [(i & -> & Li & K)|(<- & N & X)].
        * left. destruct k; [destruct K| | |].
          -- left. right. left. split; [reflexivity|]. exists i. auto.
          -- left. right. right. destruct K as [K|K]; [left|right]; (split; [reflexivity|]).
             ++ exists i. auto.
             ++ split; [exact K|]. exists i. auto.
          -- right. split; [reflexivity|]. split; [discriminate|]. exists i. auto.
        * right. split; [reflexivity|]. split; [exact N|]. apply users_calls; [apply O; [exact N|exact C]|exact X].
  Qed.
  Lemma addAll_ok ds c : uniqueNames m ->
    (forall d, In d ds -> unambiguous m (fdName d) /\ (fdRet d <> CNone -> forall fn, candidate m (fdName d) fn -> onlyCalled m (fnName fn))) ->
    exists c', addAllFunctions m c ds = Some c' /\ forall k v, has c' k v <-> has c k v \/ exists d, In d ds /\ marksFn m d k v.
  Proof.
    intros U. unfold addAllFunctions. revert c. induction ds as [|d ds IH]; intros c H.
    - exists c. split; [reflexivity|]. intros k v. split; [auto|]. intros [X|(d & [] & _)]; exact X.
    - destruct (H d (or_introl eq_refl)) as [A O]. destruct (addFunction_ok c d U A O) as (c1 & E1 & H1).
      cbn [fold_left]. rewrite E1. destruct (IH c1) as (c2 & E2 & H2). { intros d' I. apply H. right. exact I. }
      exists c2. split; [exact E2|]. intros k v. rewrite H2, H1. split.
      + intros [[X|X]|(d' & I & X)]; [left; exact X|right; exists d; split; [left; reflexivity|exact X]|right; exists d'; split; [right; exact I|exact X]].
      + intros [X|(d' & [<-|I] & X)]; [auto|auto|right; exists d'; split; assumption].
  Qed.

  (** ** Variables *)
  Lemma structConfigMap_nil vs : (forall d, In d vs -> ~ In (vdScope d) (mStructNames m)) -> structConfigMap m vs = [].
  Proof.
    unfold structConfigMap. induction vs as [|d vs IH]; intros H; [reflexivity|]. cbn [fold_left].
    replace (fold_left _ (mStructNames m) []) with (@nil (nat * string)).
    - apply IH. intros d' I. apply H. right. exact I.
    - symmetry. assert (N : ~ In (vdScope d) (mStructNames m)) by (apply H; left; reflexivity). clear - N.
      induction (mStructNames m) as [|x l IH]; [reflexivity|]. cbn [fold_left].
      destruct (String.eqb_spec x (vdScope d)) as [->|]; [exfalso; apply N; left; reflexivity|]. apply IH. intros I. apply N. right. exact I.
  Qed.
  Lemma insts_fold d is c k v : has (fold_left (addInst [] d) is c) k v <->
    has c k v \/ (k = vdCat d /\ k <> CNone /\ exists i, In i is /\ iKind i = KDeclare (vdName d) (vdLine d) v).
  Proof.
    revert c. induction is as [|i is IH]; intros c; cbn [fold_left].
    - split; [auto|]. intros [X|(_ & _ & i & [] & _)]; exact X.
    - rewrite IH. assert (S : has (addInst [] d c i) k v <-> has c k v \/ (k = vdCat d /\ k <> CNone /\ iKind i = KDeclare (vdName d) (vdLine d) v)).
      { unfold addInst. destruct (iKind i) as [var line addr|[st|] name| |]; cbn [afind];
          try (split; [auto|intros [X|(_ & _ & X)]; [exact X|discriminate]]).
        destruct (String.eqb_spec var (vdName d)) as [->|N1]; cbn [andb].
        - destruct (Nat.eqb_spec line (vdLine d)) as [->|N2].
          + rewrite has_addCat. split; [intros [X|(-> & B & ->)]|intros [X|(-> & B & [= ->])]]; auto.
          + split; [auto|]. intros [X|(_ & _ & X)]; [exact X|inversion X; congruence].
        - split; [auto|]. intros [X|(_ & _ & X)]; [exact X|inversion X; congruence]. }
      rewrite S. split.
      + intros [[X|(A & B & X)]|(A & B & j & I & X)]; [left; exact X| |]; right; (split; [exact A|]); (split; [exact B|]).
        * exists i. split; [left; reflexivity|exact X].
        * exists j. split; [right; exact I|exact X].
      + intros [X|(A & B & j & [<-|I] & X)]; [auto|auto|]. right. split; [exact A|]. split; [exact B|]. exists j. split; assumption.
  Qed.
  Lemma addVariables_ok vs c k v : (forall d, In d vs -> ~ In (vdScope d) (mStructNames m)) ->
    (has (addVariables m c vs) k v <-> has c k v \/ exists d, In d vs /\ marksVar m d k v).
  Proof.
    intros H. unfold addVariables. rewrite (structConfigMap_nil vs H). cbv zeta. clear H. revert c.
    induction vs as [|d vs IH]; intros c; cbn [fold_left].
    - split; [auto|]. intros [X|(d & [] & _)]; exact X.
    - rewrite IH, insts_fold.
      assert (S : (k = vdCat d /\ k <> CNone /\ (exists i, In i (allInsts m) /\ iKind i = KDeclare (vdName d) (vdLine d) v)) <-> marksVar m d k v).
      { unfold marksVar. split.
        - intros (-> & N & i & I & E). apply allInsts_in in I. destruct I as (fn & F & I). split; [reflexivity|]. split; [exact N|]. exists fn, i. auto.
        - intros (<- & N & fn & i & F & I & E). split; [reflexivity|]. split; [exact N|]. exists i. split; [|exact E]. apply allInsts_in. exists fn. auto. }
      rewrite S. split.
      + intros [[X|X]|(d' & I & X)]; [left; exact X|right; exists d; split; [left; reflexivity|exact X]|right; exists d'; split; [right; exact I|exact X]].
      + intros [X|(d' & [<-|I] & X)]; [auto|auto|right; exists d'; split; assumption].
  Qed.
End F.

(** ** Queries *)
Lemma actuals_ok i (marked : val -> bool) f n s : s + n <= fnArgs f ->
  (forall k, k < fnArgs f -> k < length (iOps i)) ->
  exists l, actuals i marked (map (VArg (fnName f)) (seq s n)) s = Some l /\
    (forall v, In v l <-> exists k, s <= k < s + n /\ marked (VArg (fnName f) k) = true /\ nth_error (iOps i) k = Some v) /\
    (l = [] <-> existsb marked (map (VArg (fnName f)) (seq s n)) = false).
Proof.
  intros B L. revert s B. induction n as [|n IH]; intros s B.
  - exists []. split; [reflexivity|]. split; [|split; reflexivity]. intros v. split; [intros []|intros (k & K & _); lia].
  - cbn [seq map actuals existsb]. destruct (IH (S s)) as (l & E & H & Z); [lia|]. rewrite E.
    destruct (marked (VArg (fnName f) s)) eqn:M; cbn [orb].
    + destruct (nth_error (iOps i) s) as [o|] eqn:O; [|apply nth_error_None in O; assert (s < length (iOps i)) by (apply L; lia); lia].
      exists (o :: l). split; [reflexivity|]. split; [|split; discriminate]. intros v. cbn [In]. rewrite H. split.
      * intros [<-|(k & K & X)]; [exists s; split; [lia|split; assumption]|exists k; split; [lia|exact X]].
      * intros (k & K & X & Y). destruct (Nat.eq_dec k s) as [->|N]; [left; congruence|right]. exists k. split; [lia|split; assumption].
    + exists l. split; [reflexivity|]. split; [|exact Z]. intros v. rewrite H. split.
      * intros (k & K & X). exists k. split; [lia|exact X].
      * intros (k & K & X & Y). destruct (Nat.eq_dec k s) as [->|N]; [congruence|]. exists k. split; [lia|split; assumption].
Qed.
Lemma getNums_map l : getNums (map JNum l) = Some l.
Proof. induction l as [|n l IH]; cbn; [reflexivity|]. rewrite IH. reflexivity. Qed.
Lemma getSinks_map l (b : bool) : getSinks (map JNum l ++ (if b then [JStr "all"%string] else [])) = Some (l, b).
Proof. induction l as [|n l IH]; cbn; [destruct b; reflexivity|]. rewrite IH. reflexivity. Qed.

Lemma nat_lower a : nat_of_ascii (lower a) = if (65 <=? nat_of_ascii a) && (nat_of_ascii a <=? 90) then nat_of_ascii a + 32 else nat_of_ascii a.
Proof.
  unfold lower. destruct ((65 <=? nat_of_ascii a) && (nat_of_ascii a <=? 90)) eqn:E; [|reflexivity].
  apply andb_true_iff in E. rewrite !Nat.leb_le in E. apply nat_ascii_embedding. lia.
Qed.
Lemma nat_inj a b : nat_of_ascii a = nat_of_ascii b -> a = b.
Proof. intros E. rewrite <- (ascii_nat_embedding a), E. apply ascii_nat_embedding. Qed.
Lemma lower_same a b : lower a = lower b <-> sameLetter a b.
Proof.
  assert (E : lower a = lower b <-> nat_of_ascii (lower a) = nat_of_ascii (lower b)) by (split; [congruence|apply nat_inj]).
  rewrite E, !nat_lower. unfold sameLetter. change (nat_of_ascii "A") with 65. change (nat_of_ascii "a") with 97.
  assert (I : a = b <-> nat_of_ascii a = nat_of_ascii b) by (split; [congruence|apply nat_inj]). rewrite I.
  generalize (nat_of_ascii a) as x, (nat_of_ascii b) as y. intros x y.
  destruct (Nat.leb_spec 65 x), (Nat.leb_spec x 90), (Nat.leb_spec 65 y), (Nat.leb_spec y 90); cbn [andb]; split;
    try (intros [X|(k & K & X)]; lia); intros X; try (left; lia); right; try (exists (x - 65); lia); exists (y - 65); lia.
Qed.
Lemma lowers_same s t : lowers s = lowers t <-> sameText s t.
Proof.
  revert t. induction s as [|a s IH]; intros [|b t]; cbn; split; try discriminate; try (intros X; inversion X; fail).
  - intros _. constructor.
  - reflexivity.
  - intros X. inversion X. constructor; [apply lower_same|apply IH]; assumption.
  - intros X. inversion X; subst. f_equal; [apply lower_same|apply IH]; assumption.
Qed.
