From Coq Require Import List Bool.
From Verif Require Import Assoc FlowFunctionsModel FlowFunctionsSpec.
Import ListNotations.

Section Ind.
  Context {D : Type}.
  Variable P : ff D -> Prop.
  Hypothesis Hleaf : forall f,
    match f with FUnion _ _ | FZeroed _ _ | FCompose _ | FLegacyUnion _ => False | _ => True end -> P f.
  Hypothesis HU : forall f g, P f -> P g -> P (FUnion f g).
  Hypothesis HZ : forall f z, P f -> P (FZeroed f z).
  Hypothesis HC : forall fs, Forall P fs -> P (FCompose fs).
  Hypothesis HL : forall fs, Forall P fs -> P (FLegacyUnion fs).
  Fixpoint ff_nind (f : ff D) : P f :=
    let all := fix go l : Forall P l :=
            match l with [] => Forall_nil P | e :: r => Forall_cons e (ff_nind e) (go r) end in
    match f with
    | FUnion f g => HU f g (ff_nind f) (ff_nind g)
    | FZeroed f z => HZ f z (ff_nind f)
    | FCompose fs => HC fs (all fs)
    | FLegacyUnion fs => HL fs (all fs)
    | f' => Hleaf f' I
    end.
End Ind.

Section P.
  Context {D : Type} `{EqDec D}.

  Lemma insertAll_In (c r : list D) y : In y (insertAll c r) <-> In y c \/ In y r.
  Proof.
    revert c. induction r as [|a r IH]; intros c; cbn; [tauto|].
    unfold insertAll in IH. rewrite IH, In_sinsert. intuition.
  Qed.
  Lemma insertAll_NoDup (c r : list D) : NoDup c -> NoDup (insertAll c r).
  Proof.
    revert c. induction r as [|a r IH]; intros c Hc; cbn; auto.
    apply IH. now apply NoDup_sinsert.
  Qed.
  Lemma makeContainer_In (r : list D) y : In y (makeContainer r) <-> In y r.
  Proof. unfold makeContainer. rewrite insertAll_In. cbn. tauto. Qed.
  Lemma makeContainer_NoDup (r : list D) : NoDup (makeContainer r).
  Proof. apply insertAll_NoDup. constructor. Qed.
  Lemma pair_set_In (x g y : D) : In y (pair_set x g) <-> y = g \/ y = x.
  Proof. unfold pair_set. rewrite In_sinsert. cbn. intuition. Qed.
  Lemma pair_set_NoDup (x g : D) : NoDup (pair_set x g).
  Proof. apply NoDup_sinsert. repeat constructor. auto. Qed.

  Fixpoint goC (cur : list D) (l : list (ff D)) : list D * list (ff D) :=
    match l with
    | [] => (cur, [])
    | g :: l' =>
        let (nxt, g') :=
          fold_left (fun acc fact =>
                       let '(n, h) := acc in
                       let (t, h') := computeTargets g fact in
                       (insertAll n t, h')) cur ([], g) in
        let (r, l'') := goC nxt l' in
        (r, g' :: l'')
    end.
  Definition goU (x : D) := fix go (acc : list D) (l : list (ff D)) : list D * list (ff D) :=
    match l with
    | [] => (acc, [])
    | g :: l' =>
        let (t, g') := computeTargets g x in
        let (r, l'') := go (insertAll acc t) l' in
        (r, g' :: l'')
    end.
  Lemma goU_cons x acc g l : goU x acc (g :: l) =
        let (t, g') := computeTargets g x in
        let (r, l'') := goU x (insertAll acc t) l in
        (r, g' :: l'').
  Proof. reflexivity. Qed.
  Lemma computeTargets_Compose fs x :
    computeTargets (FCompose fs) x = (let (r, fs') := goC [x] fs in (r, FCompose fs')).
  Proof. reflexivity. Qed.
  Lemma computeTargets_LUnion fs x :
    computeTargets (FLegacyUnion fs) x = (let (r, fs') := goU x [] fs in (r, FLegacyUnion fs')).
  Proof. reflexivity. Qed.

  Definition good (f : ff D) : Prop :=
    forall x y, In y (fst (computeTargets f x)) <-> documented f x y.

  Lemma foldC_fst g : forall cur n h,
    fst (fold_left (fun acc fact =>
                       let '(n, h) := acc in
                       let (t, h') := computeTargets g fact in
                       (insertAll n t, h')) cur (n, h)) =
    fold_left (fun n fact => insertAll n (fst (computeTargets g fact))) cur n.
  Proof.
    induction cur as [|a cur IH]; intros n h; cbn; auto.
    destruct (computeTargets g a) as [t h'] eqn:E. rewrite IH. reflexivity.
  Qed.

  Lemma foldC_In g : forall cur n y,
    In y (fold_left (fun n fact => insertAll n (fst (computeTargets g fact))) cur n) <->
    In y n \/ exists a, In a cur /\ In y (fst (computeTargets g a)).
  Proof.
    induction cur as [|a cur IH]; intros n y; cbn.
    - split; [tauto|]. intros [?|(a & [] & _)]; auto.
    - rewrite IH, insertAll_In. split.
      + intros [[?|?]|(b & ? & ?)]; eauto.
      + intros [?|(b & [->|?] & ?)]; eauto.
  Qed.

  Lemma goC_In fs : Forall good fs -> forall cur (A : set) y,
    (forall z, In z cur <-> A z) ->
    (In y (fst (goC cur fs)) <-> fold_left (fun A g => lift g A) (map documented fs) A y).
  Proof.
    induction 1 as [|g l Hg Hl IH]; intros cur A y HA; cbn [goC map fold_left]; auto.
    destruct (fold_left _ cur ([], g)) as [nxt g'] eqn:E.
    destruct (goC nxt l) as [r l''] eqn:E2. cbn [fst].
    assert (En : nxt = fold_left (fun n fact => insertAll n (fst (computeTargets g fact))) cur []).
    { rewrite <- (foldC_fst g cur [] g), E. reflexivity. }
    change r with (fst (r, l'')). rewrite <- E2. apply IH.
    intros z. rewrite En, foldC_In. unfold lift. split.
    - intros [[]|(a & Ha & Hz)]. exists a. rewrite <- HA, <- (Hg a z). auto.
    - intros (a & Ha & Hz). right. exists a. rewrite HA, (Hg a z). auto.
  Qed.

  Lemma goU_In fs x : Forall good fs -> forall acc y,
    In y (fst (goU x acc fs)) <-> In y acc \/ Exists (fun g => g x y) (map documented fs).
  Proof.
    induction 1 as [|g l Hg Hl IH]; intros acc y; rewrite ?goU_cons; cbn [map].
    - rewrite Exists_nil. cbn. tauto.
    - destruct (computeTargets g x) as [t g'] eqn:E.
      destruct (goU x (insertAll acc t) l) as [r l''] eqn:E2. cbn [fst].
      change r with (fst (r, l'')). rewrite <- E2, IH, insertAll_In, Exists_cons.
      rewrite <- (Hg x y), E. cbn. tauto.
  Qed.

  Lemma targets_documented f : good f.
  Proof.
    induction f as [f Hf|f g IHf IHg|f z IH|fs IH|fs IH] using ff_nind; intros x y.
    - destruct f; try contradiction; cbn [fst computeTargets documented]; unfold cases, Cup, Sing, Of, Empty, eqb, mem;
        repeat match goal with
               | |- context [eq_dec ?a ?b] => destruct (eq_dec a b); subst
               | |- context [in_dec ?a ?b] => destruct (in_dec a b); subst
               | |- context [if ?q x then _ else _] => destruct (q x)
               end; cbn [fst]; rewrite ?pair_set_In, ?In_sinsert, ?insertAll_In; cbn; intuition congruence.
    - specialize (IHf x y). specialize (IHg x y). cbn [computeTargets documented].
      destruct (computeTargets f x) as [ra f'], (computeTargets g x) as [rb g']. cbn [fst] in *. unfold Cup.
      destruct (Nat.ltb (length ra) (length rb)); cbn [fst]; rewrite insertAll_In; tauto.
    - specialize (IH x y). cbn [computeTargets documented]. destruct (computeTargets f x) as [r f']. cbn [fst] in *.
      unfold cases, Cup, Sing, eqb. destruct (eq_dec x z); rewrite ?In_sinsert; intuition congruence.
    - rewrite computeTargets_Compose. cbn [documented].
      destruct (goC [x] fs) eqn:E. cbn [fst]. change l with (fst (l, l0)). rewrite <- E.
      apply goC_In; auto. intros z. cbn. unfold Sing. intuition.
    - rewrite computeTargets_LUnion. cbn [documented].
      destruct (goU x [] fs) eqn:E. cbn [fst]. change l with (fst (l, l0)). rewrite <- E.
      rewrite goU_In; auto. cbn. tauto.
  Qed.

  (** the results are sets *)
  Lemma targets_NoDup f : wf f -> forall x, NoDup (fst (computeTargets f x)).
  Proof.
    assert (S1 : forall x : D, NoDup [x]) by (intros; repeat constructor; auto).
    induction f as [f Hf|f g IHf IHg|f z IH|fs IH|fs IH] using ff_nind; intros W x.
    - destruct f; try contradiction; cbn in W |- *; auto using NoDup_nil;
        repeat match goal with
               | |- context [if ?b then _ else _] => destruct b; cbn
               end; auto using NoDup_nil, pair_set_NoDup, NoDup_sinsert, insertAll_NoDup.
    - destruct W as [Wf Wg]. specialize (IHf Wf x). specialize (IHg Wg x). cbn [computeTargets].
      destruct (computeTargets f x) as [ra f'], (computeTargets g x) as [rb g']. cbn [fst] in *.
      destruct (Nat.ltb _ _); cbn [fst]; auto using insertAll_NoDup.
    - specialize (IH W x). cbn. destruct (computeTargets f x). cbn in *.
      destruct (eqb x z); auto using NoDup_sinsert.
    - rewrite computeTargets_Compose. destruct (goC [x] fs) eqn:E. cbn [fst].
      change l with (fst (l, l0)). rewrite <- E. clear E W IH.
      assert (W : forall l c, NoDup c -> NoDup (fst (goC c l))); [|auto].
      clear. induction l as [|g l IH]; intros c Hc; cbn [goC]; auto.
      destruct (fold_left _ c ([], g)) as [nxt g'] eqn:E.
      specialize (IH nxt). destruct (goC nxt l). cbn [fst] in *. apply IH.
      change nxt with (fst (nxt, g')). rewrite <- E, foldC_fst.
      assert (F : forall m, NoDup m ->
        NoDup (fold_left (fun n fact => insertAll n (fst (computeTargets g fact))) c m)); [|apply F; constructor].
      clear. induction c; cbn; auto using insertAll_NoDup.
    - rewrite computeTargets_LUnion. destruct (goU x [] fs) eqn:E. cbn [fst].
      change l with (fst (l, l0)). rewrite <- E. clear.
      assert (W : forall l c, NoDup c -> NoDup (fst (goU x c l))); [|apply W; constructor].
      induction l as [|g l IH]; intros c Hc; rewrite ?goU_cons; auto.
      destruct (computeTargets g x) as [t g'].
      specialize (IH (insertAll c t)). destruct (goU x (insertAll c t) l). cbn [fst] in *.
      auto using insertAll_NoDup.
  Qed.

  (** a call does not change what later calls return *)
  Definition same (f g : ff D) : Prop := forall x y, documented f x y <-> documented g x y.

  Lemma lift_ext (f g : D -> set) A B y :
    (forall x y, f x y <-> g x y) -> (forall x, A x <-> B x) -> (lift f A y <-> lift g B y).
  Proof.
    intros Hf HA. unfold lift.
    split; intros (x & Hx & Hy); exists x; split; try (now apply HA); now apply Hf.
  Qed.
  Lemma fold_lift_ext fs gs : Forall2 same fs gs -> forall (A B : set) y,
    (forall z, A z <-> B z) ->
    (fold_left (fun A g => lift g A) (map documented fs) A y <->
     fold_left (fun A g => lift g A) (map documented gs) B y).
  Proof.
    induction 1; intros A B z HA; cbn; auto. apply IHForall2.
    intros w. now apply lift_ext.
  Qed.
  Lemma Exists_ext fs gs : Forall2 same fs gs -> forall x y,
    Exists (fun g => g x y) (map documented fs) <-> Exists (fun g => g x y) (map documented gs).
  Proof.
    induction 1; intros u v; cbn; [tauto|]. rewrite !Exists_cons, IHForall2, (H0 u v). tauto.
  Qed.

  Lemma foldC_snd g : forall cur n h,
    same h g -> (forall x, same (snd (computeTargets g x)) g) ->
    same (snd (fold_left (fun acc fact =>
                       let '(n, h) := acc in
                       let (t, h') := computeTargets g fact in
                       (insertAll n t, h')) cur (n, h))) g.
  Proof.
    induction cur as [|a cur IH]; intros n h Hh Hg; cbn; auto.
    pose proof (Hg a) as Ha. destruct (computeTargets g a) as [t h'] eqn:E.
    cbn in Ha. apply IH; auto.
  Qed.

  Lemma same_refl f : same f f.
  Proof. intros x y; tauto. Qed.

  Lemma call_same f : forall x, same (snd (computeTargets f x)) f.
  Proof.
    induction f as [f Hf|f g IHf IHg|f z IH|fs IH|fs IH] using ff_nind; intros x.
    - destruct f; try contradiction; cbn [computeTargets]; try apply same_refl;
        (destruct (eqb x zero) eqn:E; [apply (proj1 (eqb_true _ _)) in E; subst|apply same_refl]);
        cbn [snd]; intros u v; cbn [documented]; unfold cases, Cup, Of, Sing; cbn beta; rewrite In_sinsert; intuition.
    - specialize (IHf x). specialize (IHg x). cbn [computeTargets].
      destruct (computeTargets f x) as [ra f'], (computeTargets g x) as [rb g'].
      cbn [snd] in *. destruct (Nat.ltb _ _); intros u v; cbn [documented snd]; unfold Cup; rewrite (IHf u v), (IHg u v); tauto.
    - specialize (IH x). cbn. destruct (computeTargets f x) as [r f']. cbn in *.
      intros u v; cbn; unfold cases, Cup. rewrite (IH u v). tauto.
    - rewrite computeTargets_Compose.
      assert (W : forall cur, Forall2 same (snd (goC cur fs)) fs).
      { induction IH as [|g l Hg Hl IHl]; intros cur; cbn [goC]; [constructor|].
        pose proof (foldC_snd g cur [] g (same_refl g) Hg) as Hs.
        destruct (fold_left _ cur ([], g)) as [nxt g']. cbn in Hs.
        specialize (IHl nxt). destruct (goC nxt l). cbn in *. now constructor. }
      specialize (W [x]). destruct (goC [x] fs) as [r fs']. cbn [snd] in *.
      intros u v. cbn [documented]. apply fold_lift_ext; auto. tauto.
    - rewrite computeTargets_LUnion.
      assert (W : forall cur, Forall2 same (snd (goU x cur fs)) fs).
      { induction IH as [|g l Hg Hl IHl]; intros cur; rewrite ?goU_cons; [constructor|].
        specialize (Hg x). destruct (computeTargets g x) as [t g']. cbn in Hg.
        specialize (IHl (insertAll cur t)). destruct (goU x (insertAll cur t) l). cbn in *. now constructor. }
      specialize (W []). destruct (goU x [] fs) as [r fs']. cbn [snd] in *.
      intros u v. cbn [documented]. now apply Exists_ext.
  Qed.

  Lemma after_same f xs : same (after f xs) f.
  Proof.
    unfold after. revert f. induction xs as [|a xs IH]; intros f; cbn; [apply same_refl|].
    intros u v. rewrite (IH _ u v). apply call_same.
  Qed.

  Lemma history_irrelevant f xs x y :
    In y (fst (computeTargets (after f xs) x)) <-> In y (fst (computeTargets f x)).
  Proof. rewrite (targets_documented _ x y), (targets_documented f x y). apply after_same. Qed.

  (** Compose::compose and Union's constructor *)
  Lemma composeFlows_spec fs x y :
    In y (fst (computeTargets (composeFlows fs) x)) <->
    fold_left (fun A g => lift g A) (map documented fs) (Sing x) y.
  Proof.
    rewrite (targets_documented _ x y).
    assert (W : forall l A B y, (forall z, A z <-> B z) ->
      fold_left (fun A g => lift g A) (map documented (filter (fun f => negb (isLegacyIdentity f)) l)) A y <->
      fold_left (fun A g => lift g A) (map documented l) (B : @set D) y).
    { clear. induction l as [|f l IH]; intros A B y HA; cbn; auto.
      destruct (isLegacyIdentity f) eqn:E; cbn.
      - apply IH. intros z. unfold lift. destruct f; try discriminate. cbn. unfold Sing.
        rewrite HA. split; [intros; exists z; auto|intros (w & ? & ->); auto].
      - apply IH. intros z. apply lift_ext; auto. tauto. }
    rewrite <- (W fs (Sing x) (Sing x) y) by tauto.
    unfold composeFlows. destruct (filter _ fs) as [|f [|g l]]; cbn.
    - tauto.
    - unfold lift, Sing. split; [intros; exists x; auto|intros (w & -> & ?); auto].
    - tauto.
  Qed.

  Lemma mkUnion_spec fs x y :
    In y (fst (computeTargets (mkUnion fs) x)) <->
    (fs = [] /\ y = x) \/ exists f, In f fs /\ documented f x y.
  Proof.
    rewrite (targets_documented _ x y). unfold mkUnion. destruct fs as [|f fs].
    - cbn. rewrite Exists_cons, Exists_nil. unfold Sing.
      split; [intros [?|[]]; auto|intros [[_ ?]|(f & [] & _)]; auto].
    - cbn [documented]. rewrite Exists_exists. split.
      + intros (g & Hg & Hy). apply in_map_iff in Hg as (h & <- & Hh). eauto.
      + intros [[? _]|(g & Hg & Hy)]; [discriminate|]. exists (documented g). split; auto. now apply in_map.
  Qed.

  Lemma zeroed_spec f z x y :
    In y (fst (computeTargets (FZeroed f z) x)) <->
    In y (fst (computeTargets f x)) \/ (x = z /\ y = z).
  Proof.
    cbn [computeTargets]. destruct (computeTargets f x) as [r f']. cbn [fst]. unfold eqb.
    destruct (eq_dec x z); rewrite ?In_sinsert; intuition congruence.
  Qed.

  Lemma genkill_spec (v w x y : D) :
    In y (fst (computeTargets (FGenKillOthers v w) x)) <->
    In y (fst (computeTargets (composeFlows [FKillIf (fun z => negb (eqb z w)); FGen v w]) x)).
  Proof.
    rewrite (targets_documented _ x y), composeFlows_spec. cbn. unfold cases, Cup, Sing, Empty, lift, eqb.
    split.
    - intros [[-> Hy]|[_ []]]. exists w. split; [|tauto]. exists w. split; auto.
      destruct (eq_dec w w); [right|congruence]. split; [discriminate|auto].
    - intros (a & (b & -> & [[Hn []]|[Hn ->]]) & Hy).
      destruct (eq_dec x w); [subst|now destruct Hn]. left. split; auto. tauto.
  Qed.
End P.
