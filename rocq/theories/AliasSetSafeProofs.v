(** No released alias set is ever used, for all histories including merges. *)
From Coq Require Import List Bool Arith Lia Permutation.
From Verif Require Import Assoc UtilitiesModel UtilitiesSpec UtilitiesProofs AliasSetModel AliasSetSpec AliasSetProofs AliasSetModuleProofs AliasSetMergeProofs.
Import ListNotations.

Record W (s : ast) : Prop := mkW {
  w_sets : NoDup (akeys (sets s));
  w_heap : NoDup (akeys (heap s));
  w_val : forall v b, afind v (sets s) = Some b -> exists a l, nth_error (boxes s) b = Some a /\ afind a (heap s) = Some l /\ In v l;
  w_mem : forall a l v, afind a (heap s) = Some l -> In v l -> known s v
}.

Section S.
  Variable asserts : bool.
  Variable fresh : list nat -> nat.
  Variable iter : list nat -> list nat.
  Hypothesis Hfresh : forall l, ~ In (fresh l) l.
  Hypothesis Hiter : forall l, Permutation (iter l) l.

  Lemma W_empty : W emptyA.
  Proof. constructor; cbn; try constructor; intros; discriminate. Qed.

  Lemma addSingleton_w s v : W s -> exists s', addSingleton asserts fresh v s = Some s' /\ W s' /\ Ext s s' /\ known s' v.
  Proof.
    intro I. unfold addSingleton. destruct (afind v (sets s)) as [b|] eqn:E.
    - exists s. split; [|split; [exact I|split; [apply ext_refl|exists b; exact E]]].
      destruct (w_val s I v b E) as [a [l [E1 [E2 E3]]]]. unfold deref. rewrite E1, E2, (proj2 (mem_true v l) E3). destruct asserts; reflexivity.
    - unfold acquire. set (a := fresh (akeys (heap s))).
      assert (Fa : afind a (heap s) = None) by (apply afind_None; apply Hfresh).
      unfold insertAll. cbn [boxes heap sets analyzed].
      assert (NB : nth_error (boxes s ++ [a]) (length (boxes s)) = Some a) by (rewrite nth_error_app2, Nat.sub_diag by lia; reflexivity).
      rewrite NB, (afind_snoc a [] (heap s) Fa a). destruct (eq_dec a a) as [_|]; [|contradiction]. cbn [fold_left]. change (sinsert v []) with [v]. cbn [heap boxes sets analyzed]. eexists. split; [reflexivity|].
      set (H' := aset a [v] (heap s ++ [(a, [])])).
      assert (HF : forall a', afind a' H' = if eq_dec a' a then Some [v] else afind a' (heap s)).
      { intro a'. unfold H'. rewrite afind_aset. destruct (eq_dec a' a) as [-> |Ne]; [reflexivity|]. rewrite (afind_snoc a [] (heap s) Fa a'). destruct (eq_dec a' a); [contradiction|reflexivity]. }
      assert (OB : forall b x, nth_error (boxes s) b = Some x -> nth_error (boxes s ++ [a]) b = Some x).
      { intros b x Hb. rewrite nth_error_app1; [exact Hb|]. apply nth_error_Some. congruence. }
      assert (KM : forall u, known s u \/ u = v -> exists b, afind u (aset v (length (boxes s)) (sets s)) = Some b).
      { intros u [[b Hu]| ->]; [|eexists; apply afind_aset_eq]. rewrite afind_aset. destruct (eq_dec u v); eauto. }
      split; [|split; [split; [|reflexivity]; cbn [sets]; intros u b E'; rewrite afind_aset; destruct (eq_dec u v) as [-> |]; [congruence|exact E']|apply KM; auto]].
      constructor; cbn [sets heap boxes].
      + apply NoDup_aset, (w_sets s I).
      + unfold H'. apply NoDup_aset. unfold akeys. rewrite map_app. cbn. apply NoDup_app_single; [apply (w_heap s I)|apply Hfresh].
      + intros u b E'. rewrite afind_aset in E'. destruct (eq_dec u v) as [-> |Ne].
        * injection E' as <-. exists a, [v]. split; [exact NB|]. rewrite HF. destruct (eq_dec a a); [|contradiction]. cbn. auto.
        * destruct (w_val s I u b E') as [a' [l' [E1 [E2 E3]]]]. exists a', l'. split; [apply OB; exact E1|]. rewrite HF. destruct (eq_dec a' a) as [-> |]; [congruence|]. auto.
      + intros a' l' u E' Hu. apply KM. rewrite HF in E'. destruct (eq_dec a' a) as [-> |Na]; [injection E' as <-; destruct Hu as [<- |[]]; auto|left; exact (w_mem s I a' l' u E' Hu)].
  Qed.

  Lemma attachNew_w s v b a l : W s -> afind v (sets s) = None -> nth_error (boxes s) b = Some a -> afind a (heap s) = Some l ->
    exists s', insertAll b [v] (mkA (heap s) (boxes s) (aset v b (sets s)) (analyzed s)) = Some s' /\ W s' /\ Ext s s' /\ known s' v.
  Proof.
    intros I N Eb Ea. unfold insertAll. cbn [boxes heap sets analyzed]. rewrite Eb, Ea. eexists. split; [reflexivity|].
    assert (KM : forall u, known s u \/ u = v -> exists b', afind u (aset v b (sets s)) = Some b').
    { intros u [[b' Hu]| ->]; [|eexists; apply afind_aset_eq]. rewrite afind_aset. destruct (eq_dec u v); eauto. }
    split; [|split; [split; [|reflexivity]; cbn [sets]; intros u b' E; rewrite afind_aset; destruct (eq_dec u v) as [-> |Ne]; [congruence|exact E]|apply KM; auto]].
    constructor; cbn [sets heap boxes].
    - apply NoDup_aset, (w_sets s I).
    - apply NoDup_aset, (w_heap s I).
    - intros u b' E. rewrite afind_aset in E. destruct (eq_dec u v) as [-> |Ne].
      + injection E as <-. exists a, (sinsert v l). split; [exact Eb|]. split; [cbn [fold_left]; rewrite afind_aset_eq; reflexivity|]. apply In_sinsert. auto.
      + destruct (w_val s I u b' E) as [a' [l' [E1 [E2 E3]]]]. exists a'. rewrite afind_aset. destruct (eq_dec a' a) as [-> |Na].
        * exists (sinsert v l). split; [exact E1|]. split; [reflexivity|]. rewrite E2 in Ea. injection Ea as ->. apply In_sinsert. auto.
        * exists l'. auto.
    - intros a' l' u E Hu. apply KM. rewrite afind_aset in E. destruct (eq_dec a' a) as [-> |Na]; [|left; exact (w_mem s I a' l' u E Hu)].
      injection E as <-. cbn [fold_left] in Hu. apply In_sinsert in Hu. destruct Hu as [-> |Hu]; [auto|]. left. exact (w_mem s I a l u Ea Hu).
  Qed.

  Lemma mergeInto_w s small large sa la ls ll : W s ->
    nth_error (boxes s) small = Some sa -> nth_error (boxes s) large = Some la -> sa <> la -> afind sa (heap s) = Some ls -> afind la (heap s) = Some ll ->
    exists s', match insertAll large (iter ls) s with
               | Some s1 => match fold_left (redirect sa large) (iter ls) (Some s1) with Some s2 => release sa s2 | None => None end
               | None => None end = Some s' /\ W s' /\ sets s' = sets s /\ analyzed s' = analyzed s.
  Proof.
    intros I Esm Ela Ne Hs Hl. unfold insertAll. rewrite Ela, Hl.
    set (U := fold_left (fun l x => sinsert x l) (iter ls) ll). set (s1 := mkA (aset la U (heap s)) (boxes s) (sets s) (analyzed s)).
    assert (InU : forall y, In y U <-> In y ls \/ In y ll) by (intro y; unfold U; rewrite fold_sinsert_in, (in_iter iter Hiter); reflexivity).
    destruct (redirect_fold sa la large (iter ls) (not_eq_sym Ne) s1) as [B [E3 E4]].
    - intros x Hx. apply (proj1 (in_iter iter Hiter ls x)) in Hx. destruct (w_mem s I sa ls x Hs Hx) as [b Eb]. destruct (w_val s I x b Eb) as [a [l [E1 _]]]. unfold s1; cbn [sets boxes]. eauto.
    - exact Ela.
    - rewrite E3. unfold release. cbn [heap s1]. rewrite afind_aset_neq by exact Ne. rewrite Hs. eexists. split; [reflexivity|].
      unfold s1 in E4; cbn [sets boxes] in E4. unfold s1; cbn [heap boxes sets analyzed].
      assert (NH : NoDup (akeys (aset la U (heap s)))) by (apply NoDup_aset, (w_heap s I)).
      assert (HF : forall a, afind a (adel sa (aset la U (heap s))) = if eq_dec a sa then None else if eq_dec a la then Some U else afind a (heap s)).
      { intro a. rewrite afind_adel by exact NH. destruct (eq_dec a sa); [reflexivity|]. apply afind_aset. }
      split; [|auto]. constructor; cbn [sets heap boxes].
      + exact (w_sets s I).
      + apply NoDup_adel. exact NH.
      + intros v b E. destruct (w_val s I v b E) as [a [l [E1 [E2 E5]]]]. rewrite E4, E1. destruct (a =? sa) eqn:Q.
        * apply Nat.eqb_eq in Q. subst a. rewrite E2 in Hs. injection Hs as ->.
          assert (X : existsb (fun x => match afind x (sets s) with Some b' => b' =? b | None => false end) (iter ls) = true).
          { apply existsb_exists. exists v. split; [apply (in_iter iter Hiter); exact E5|]. rewrite E. apply Nat.eqb_refl. }
          rewrite X. cbn [andb]. exists la, U. split; [reflexivity|]. rewrite HF. destruct (eq_dec la sa); [congruence|]. destruct (eq_dec la la); [|contradiction]. split; [reflexivity|]. apply InU. auto.
        * cbn [andb]. apply Nat.eqb_neq in Q. exists a. rewrite HF. destruct (eq_dec a sa); [contradiction|]. destruct (eq_dec a la) as [-> |Nl].
          -- exists U. split; [reflexivity|]. split; [reflexivity|]. apply InU. right. congruence.
          -- exists l. auto.
      + intros a l v E Hv. unfold known. cbn [sets]. rewrite HF in E. destruct (eq_dec a sa); [discriminate|]. destruct (eq_dec a la) as [-> |Nl].
        * injection E as <-. apply InU in Hv. destruct Hv as [Hv|Hv]; [exact (w_mem s I sa ls v Hs Hv)|exact (w_mem s I la ll v Hl Hv)].
        * exact (w_mem s I a l v E Hv).
  Qed.

  Lemma mergeBoxes_w s v1 v2 b1 b2 : W s -> afind v1 (sets s) = Some b1 -> afind v2 (sets s) = Some b2 ->
    exists s', mergeBoxes iter b1 b2 s = Some s' /\ W s' /\ sets s' = sets s /\ analyzed s' = analyzed s.
  Proof.
    intros I E1 E2. unfold mergeBoxes. destruct (w_val s I v1 b1 E1) as [a1 [l1 [A1 [H1 M1]]]], (w_val s I v2 b2 E2) as [a2 [l2 [A2 [H2 M2]]]]. rewrite A1, A2.
    destruct ((b1 =? b2) || (a1 =? a2)) eqn:Q; [exists s; auto|]. apply orb_false_iff in Q. destruct Q as [_ Q]. apply Nat.eqb_neq in Q. rewrite H1, H2.
    destruct (length l2 <? length l1).
    - exact (mergeInto_w s b2 b1 a2 a1 l2 l1 I A2 A1 (not_eq_sym Q) H2 H1).
    - exact (mergeInto_w s b1 b2 a1 a2 l1 l2 I A1 A2 Q H1 H2).
  Qed.

  Lemma mergeValues_w s x y : W s -> known s x -> known s y -> exists s', mergeValues iter x y s = Some s' /\ W s' /\ Ext s s'.
  Proof.
    intros I [b1 E1] [b2 E2]. unfold mergeValues. destruct (x =? y); [exists s; split; [reflexivity|]; split; [exact I|apply ext_refl]|]. rewrite E1, E2.
    destruct (mergeBoxes_w s x y b1 b2 I E1 E2) as [s' [R [I' [S' N']]]]. exists s'. split; [exact R|]. split; [exact I'|]. split; [intros v b; rewrite S'; auto|exact N'].
  Qed.

  Lemma attach_w s v r b : W s -> afind r (sets s) = Some b -> exists s', attach iter v b s = Some s' /\ W s' /\ Ext s s' /\ known s' v.
  Proof.
    intros I E. unfold attach. destruct (afind v (sets s)) as [b'|] eqn:Ev.
    - destruct (mergeBoxes_w s r v b b' I E Ev) as [s' [R [I' [S' N']]]]. exists s'. split; [exact R|]. split; [exact I'|]. split; [split; [intros u c; rewrite S'; auto|exact N']|]. exists b'. rewrite S'. exact Ev.
    - destruct (w_val s I r b E) as [a [l [E1 [E2 E3]]]]. exact (attachNew_w s v b a l I Ev E1 E2).
  Qed.

  Lemma mergeRep_fold_w ty b r0 (rest : list (nat * nat)) : forall s occ rm, W s -> afind r0 (sets s) = Some b -> (forall ir, In ir rest -> known s (snd ir)) ->
    exists s' occ' sel, fold_left (mergeRep iter ty b) rest (Some (s, occ, rm)) = Some (s', occ', rm ++ sel) /\ W s' /\ sets s' = sets s /\ analyzed s' = analyzed s
      /\ (forall c n, increasing c (map fst rest) n -> increasing c sel n).
  Proof.
    induction rest as [|[i r] rest IH]; intros s occ rm I E0 Kn; cbn [fold_left].
    - exists s, occ, []. rewrite app_nil_r. auto 10.
    - unfold mergeRep at 2. cbn [snd fst]. destruct (Kn (i, r) (or_introl eq_refl)) as [b' Eb]. cbn [snd] in Eb. rewrite Eb.
      destruct (mergeBoxes_w s r0 r b b' I E0 Eb) as [s1 [R [I1 [S1 N1]]]]. rewrite R.
      assert (X : exists occ1 hd, (if mem (ty r) occ then (s1, occ, rm ++ [i]) else (s1, occ ++ [ty r], rm)) = (s1, occ1, rm ++ hd) /\ (hd = [] \/ hd = [i])).
      { destruct (mem (ty r) occ); [exists occ, [i]; auto|]. exists (occ ++ [ty r]), []. rewrite app_nil_r. auto. }
      destruct X as [occ1 [hd [-> Hhd]]].
      destruct (IH s1 occ1 (rm ++ hd)) as [s' [occ' [sel [F [I' [S' [N' Inc]]]]]]].
      + exact I1.
      + rewrite S1. exact E0.
      + intros ir Hir. unfold known. rewrite S1. apply (Kn ir). right. exact Hir.
      + exists s', occ', (hd ++ sel). rewrite F, app_assoc. split; [reflexivity|]. split; [exact I'|]. split; [congruence|]. split; [congruence|].
        intros c n. cbn [map fst increasing]. intros [H1 [H2 H3]]. destruct Hhd as [-> | ->]; cbn [app].
        * apply (increasing_mono n sel (S i) c); [lia|]. apply Inc. exact H3.
        * cbn [increasing]. repeat split; [exact H1|exact H2|apply Inc; exact H3].
  Qed.

  Lemma addPointer_w may ty v reps s : W s -> (forall r, In r reps -> known s r) ->
    exists reps' s', addPointer asserts fresh iter may ty v (reps, s) = Some (reps', s') /\ W s' /\ Ext s s' /\ known s' v /\ incl reps' (v :: reps).
  Proof.
    intros I Kn. unfold addPointer.
    assert (IM : forall i r, In (i, r) (filter (fun ir => may v (snd ir)) (combine (seq 0 (length reps)) reps)) -> In r reps).
    { intros i r H. apply filter_In in H. destruct H as [H _]. apply in_combine_r in H. exact H. }
    pose proof (increasing_combine (fun ir => may v (snd ir)) reps 0) as Inc. cbn [Nat.add] in Inc.
    assert (AI : forall l, incl l reps -> incl (l ++ [v]) (v :: reps)).
    { intros l H x Hx. apply in_app_iff in Hx. destruct Hx as [Hx|[<- |[]]]; [right; apply H; exact Hx|left; reflexivity]. }
    destruct (filter (fun ir => may v (snd ir)) (combine (seq 0 (length reps)) reps)) as [|[i0 r0] rest] eqn:EF.
    - destruct (addSingleton_w s v I) as [s' [R [I' [X Kv]]]]. rewrite R. exists (reps ++ [v]), s'. repeat (split; [first [reflexivity|assumption]|]). apply AI, incl_refl.
    - destruct (Kn r0 (IM i0 r0 (or_introl eq_refl))) as [b Eb]. destruct rest as [|ir1 rest'].
      + rewrite Eb. destruct (attach_w s v r0 b I Eb) as [s' [R [I' [X Kv]]]]. rewrite R. eexists _, s'. split; [reflexivity|]. repeat (split; [assumption|]).
        destruct (ty v =? ty r0); [apply incl_tl, incl_refl|apply AI, incl_refl].
      + rewrite Eb. set (rest := ir1 :: rest') in *.
        assert (KR : forall ir, In ir rest -> known s (snd ir)) by (intros [i r] Hir; apply Kn; cbn [snd]; apply (IM i r); right; exact Hir).
        destruct (mergeRep_fold_w ty b r0 rest s [ty r0] [] I Eb KR) as [s1 [occ [sel [F [I1 [S1 [N1 Inc1]]]]]]].
        cbn [app] in F. rewrite F.
        assert (Eb1 : afind r0 (sets s1) = Some b) by (rewrite S1; exact Eb).
        destruct (attach_w s1 v r0 b I1 Eb1) as [s2 [R [I2 [X Kv]]]]. rewrite R.
        cbn [map fst increasing] in Inc. destruct Inc as [_ [L0 IncR]].
        assert (IncS : increasing (S i0) sel (length reps)) by (apply Inc1; exact IncR).
        rewrite erase_ok by (apply (increasing_mono _ _ (S i0) 0); [lia|exact IncS]).
        eexists _, s2. split; [reflexivity|]. split; [exact I2|].
        split; [destruct X as [X1 X2]; split; [intros u b' E; apply X1; rewrite S1; exact E|congruence]|]. split; [exact Kv|].
        assert (WS : incl (without sel reps) reps) by (intros r Hr; unfold without in Hr; apply in_keep in Hr; destruct Hr as [i [E _]]; eapply nth_error_In; exact E).
        destruct (mem (ty v) occ); [apply incl_tl; exact WS|apply AI; exact WS].
  Qed.

  (** ** the module *)
  Variables isPtr isNull isInst isFunc isGlob decl : nat -> bool.
  Variable castOp : nat -> option nat.
  Variable globalsOf : nat -> list nat.
  Variable fnInstrs : nat -> list instr.
  Variable fnArgs : nat -> list nat.
  Variable ty : nat -> nat.
  Variable may : nat -> nat -> nat -> bool.
  Variable users : nat -> list user.
  Variable fnOf : nat -> option nat.
  Notation interesting := (interesting isPtr isNull).
  Notation pointerOf := (pointerOf isPtr isNull isInst isFunc globalsOf fnInstrs fnArgs).
  Notation fnEvents := (fnEvents iter isPtr isNull isInst isFunc castOp globalsOf fnInstrs fnArgs).
  Notation execEvent := (execEvent asserts fresh iter ty may).
  Notation computeFunction := (computeFunction asserts fresh iter isPtr isNull isInst isFunc decl castOp globalsOf fnInstrs fnArgs ty may).
  Notation visitUser := (visitUser asserts fresh iter isPtr isNull isInst isFunc decl castOp globalsOf fnInstrs fnArgs ty may).
  Notation computeValue := (computeValue asserts fresh iter isPtr isNull isInst isFunc isGlob decl castOp globalsOf fnInstrs fnArgs ty may users fnOf).
  Notation introduceAlias := (introduceAlias asserts fresh iter isPtr isNull isInst isFunc isGlob decl castOp globalsOf fnInstrs fnArgs ty may users fnOf).
  Notation doOp := (doOp asserts fresh iter isPtr isNull isInst isFunc isGlob decl castOp globalsOf fnInstrs fnArgs ty may users fnOf).
  Hypothesis WF : wfModule isPtr isNull isInst decl fnInstrs users.

  Lemma exec_w f (es : list event) : forall reps s seen, W s -> (forall v, In v reps -> known s v) -> (forall v, In v seen -> known s v) -> linksOk seen es ->
    exists reps' s', fold_left (execEvent f) es (Some (reps, s)) = Some (reps', s') /\ W s' /\ Ext s s' /\ (forall v, In (EPtr v) es -> known s' v).
  Proof.
    induction es as [|e es IH]; intros reps s seen I Kr Ks LO; cbn [fold_left].
    - exists reps, s. split; [reflexivity|]. split; [exact I|]. split; [apply ext_refl|]. intros v [].
    - destruct e as [v|v w|v]; cbn [AliasSetModel.execEvent]; cbn [linksOk] in LO.
      + destruct (addSingleton_w s v I) as [s1 [R [I1 [X1 Kv]]]]. rewrite R.
        destruct (IH reps s1 (v :: seen)) as [reps' [s' [F [I' [X' KP]]]]]; auto.
        * intros x Hx. exact (ext_known s s1 x X1 (Kr x Hx)).
        * intros x [<- |Hx]; [exact Kv|exact (ext_known s s1 x X1 (Ks x Hx))].
        * exists reps', s'. split; [exact F|]. split; [exact I'|]. split; [exact (ext_trans _ _ _ X1 X')|]. intros x [E|Hx]; [discriminate|apply KP; exact Hx].
      + destruct LO as [Sv [Sw LO]]. destruct (mergeValues_w s v w I (Ks v Sv) (Ks w Sw)) as [s1 [R [I1 X1]]]. rewrite R.
        destruct (IH reps s1 seen) as [reps' [s' [F [I' [X' KP]]]]]; auto.
        * intros x Hx. exact (ext_known s s1 x X1 (Kr x Hx)).
        * intros x Hx. exact (ext_known s s1 x X1 (Ks x Hx)).
        * exists reps', s'. split; [exact F|]. split; [exact I'|]. split; [exact (ext_trans _ _ _ X1 X')|]. intros x [E|Hx]; [discriminate|apply KP; exact Hx].
      + destruct (addPointer_w (may f) ty v reps s I Kr) as [reps1 [s1 [R [I1 [X1 [Kv Inc]]]]]]. rewrite R.
        destruct (IH reps1 s1 seen) as [reps' [s' [F [I' [X' KP]]]]]; auto.
        * intros x Hx. apply Inc in Hx. destruct Hx as [<- |Hx]; [exact Kv|exact (ext_known s s1 x X1 (Kr x Hx))].
        * intros x Hx. exact (ext_known s s1 x X1 (Ks x Hx)).
        * exists reps', s'. split; [exact F|]. split; [exact I'|]. split; [exact (ext_trans _ _ _ X1 X')|]. intros x [E|Hx]; [injection E as <-; exact (ext_known s1 s' v X' Kv)|apply KP; exact Hx].
  Qed.

  (** sound memory, and the pointers of analysed functions are known *)
  Definition Safe (s : ast) : Prop := W s /\ forall f v, In f (analyzed s) -> decl f = false -> pointerOf f v -> known s v.

  Lemma safe_ext s s' : Safe s -> W s' -> Ext s s' -> Safe s'.
  Proof. intros [_ H] I [X1 X2]. split; [exact I|]. rewrite X2. intros f v Hf Df Pv. destruct (H f v Hf Df Pv) as [b Hb]. exists b. auto. Qed.
  Lemma ext_extA s s' : Ext s s' -> ExtA s s'.
  Proof. intros [X1 X2]. split; [exact X1|rewrite X2; apply incl_refl]. Qed.

  Lemma function_w s f : Safe s -> exists s', computeFunction f s = Some s' /\ Safe s' /\ ExtA s s' /\ In f (analyzed s').
  Proof.
    intros [I H]. unfold AliasSetModel.computeFunction. destruct (mem f (analyzed s)) eqn:E.
    - apply mem_true in E. exists s. split; [reflexivity|]. split; [split; assumption|]. split; [apply extA_refl|exact E].
    - set (s0 := mkA (heap s) (boxes s) (sets s) (analyzed s ++ [f])).
      assert (I0 : W s0) by (destruct I; constructor; assumption).
      destruct (decl f) eqn:Df.
      + exists s0. split; [reflexivity|]. split.
        * split; [exact I0|]. unfold s0; cbn [analyzed]. intros g v Hg Dg Pg. apply in_app_iff in Hg. destruct Hg as [Hg|[<- |[]]]; [exact (H g v Hg Dg Pg)|congruence].
        * split; [split; [auto|unfold s0; cbn; apply incl_appl, incl_refl]|]. unfold s0; cbn. apply in_app_iff. right. left. reflexivity.
      + destruct (exec_w f (fnEvents f) [] s0 [] I0) as [reps' [s' [F [I' [[X1 X2] KP]]]]]; [intros v []|intros v []|apply linksOk_fn; assumption|]. rewrite F. exists s'. split; [reflexivity|].
        unfold s0 in X2; cbn [analyzed] in X2. split; [|split; [split; [exact X1|rewrite X2; apply incl_appl, incl_refl]|rewrite X2; apply in_app_iff; right; left; reflexivity]].
        split; [exact I'|]. rewrite X2. intros g v Hg Dg Pg. apply in_app_iff in Hg. destruct Hg as [Hg|[<- |[]]].
        * destruct (H g v Hg Dg Pg) as [b Hb]. exists b. apply X1. exact Hb.
        * apply KP. apply (ptr_events iter Hiter isPtr isNull isInst isFunc isGlob decl castOp globalsOf fnInstrs fnArgs ty may users fnOf f v). exact Pg.
  Qed.

  Lemma operand_w s f i o : Safe s -> In f (analyzed s) -> decl f = false -> In i (fnInstrs f) -> In o (iOps i) -> interesting o = true -> known s o.
  Proof.
    intros [_ H] Hf Df Hi Ho Po. apply (H f o Hf Df). destruct (isInst o) eqn:Q.
    - destruct (wf_local _ _ _ _ _ _ WF f i o Hi Ho Q) as [j [Hj E]]. left. exists j. split; [exact Hj|]. split; [auto|]. unfold AliasSetModel.interesting in Po. apply andb_true_iff in Po. tauto.
    - right. left. exists i. auto.
  Qed.

  Lemma user_w g (us : list user) : forall s, Safe s -> known s g -> incl us (users g) -> exists s', fold_left (visitUser g) us (Some s) = Some s' /\ Safe s' /\ ExtA s s'.
  Proof.
    induction us as [|u us IH]; intros s G Kg Inc; cbn [fold_left]; [exists s; split; [reflexivity|]; split; [exact G|apply extA_refl]|].
    assert (Hu : In u (users g)) by (apply Inc; left; reflexivity). assert (Inc' : incl us (users g)) by (intros x Hx; apply Inc; right; exact Hx).
    assert (X : exists s1, visitUser g (Some s) u = Some s1 /\ Safe s1 /\ ExtA s s1).
    { unfold AliasSetModel.visitUser. destruct (uFn u) as [f|] eqn:Ef; [|exists s; split; [reflexivity|]; split; [exact G|apply extA_refl]].
      destruct (function_w s f G) as [s1 [R1 [G1 [X1 F1]]]]. rewrite R1. destruct (wf_user _ _ _ _ _ _ WF g u f Hu Ef) as [Df [i [Hi [Ei Es]]]].
      destruct (negb (isFunc g) && interesting (uV u)) eqn:Q.
      - apply andb_true_iff in Q. destruct Q as [_ Q2].
        assert (Ku : known s1 (uV u)).
        { apply (proj2 G1 f _ F1 Df). left. exists i. split; [exact Hi|]. split; [auto|]. unfold AliasSetModel.interesting in Q2. apply andb_true_iff in Q2. tauto. }
        destruct (mergeValues_w s1 (uV u) g (proj1 G1) Ku (extA_known _ _ g X1 Kg)) as [s2 [R2 [G2 X2]]]. exists s2. split; [exact R2|]. split; [exact (safe_ext _ _ G1 G2 X2)|exact (extA_trans _ _ _ X1 (ext_extA _ _ X2))].
      - destruct (uStore u) as [[svo spo]|] eqn:Eu; [|exists s1; auto]. destruct (interesting svo) eqn:Iv; [|exists s1; auto].
        destruct (wf_store _ _ _ _ _ _ WF f i svo spo Hi Es) as [O1 [O2 P2]].
        assert (K1 : known s1 svo) by exact (operand_w s1 f i svo G1 F1 Df Hi O1 Iv). assert (K2 : known s1 spo) by exact (operand_w s1 f i spo G1 F1 Df Hi O2 P2).
        destruct (mergeValues_w s1 svo spo (proj1 G1) K1 K2) as [s2 [R2 [G2 X2]]]. exists s2. split; [exact R2|]. split; [exact (safe_ext _ _ G1 G2 X2)|exact (extA_trans _ _ _ X1 (ext_extA _ _ X2))]. }
    destruct X as [s1 [R1 [G1 X1]]]. rewrite R1. destruct (IH s1 G1 (extA_known _ _ g X1 Kg) Inc') as [s' [R' [G' X']]]. exists s'. split; [exact R'|]. split; [exact G'|exact (extA_trans _ _ _ X1 X')].
  Qed.

  Lemma value_w s v : Safe s -> exists s', computeValue v s = Some s' /\ Safe s' /\ ExtA s s' /\ (interesting v = true -> known s' v).
  Proof.
    intro G. unfold AliasSetModel.computeValue. destruct (interesting v) eqn:Iv; [|exists s; split; [reflexivity|]; split; [exact G|]; split; [apply extA_refl|discriminate]].
    destruct (addSingleton_w s v (proj1 G)) as [s1 [R1 [I1 [X1 K1]]]]. rewrite R1. pose proof (safe_ext _ _ G I1 X1) as G1. destruct (isGlob v).
    - destruct (user_w v (users v) s1 G1 K1 (incl_refl _)) as [s2 [R2 [G2 X2]]]. exists s2. split; [exact R2|]. split; [exact G2|]. split; [exact (extA_trans _ _ _ (ext_extA _ _ X1) X2)|]. intros _. exact (extA_known _ _ v X2 K1).
    - destruct (fnOf v) as [f|].
      + destruct (function_w s1 f G1) as [s2 [R2 [G2 [X2 _]]]]. exists s2. split; [exact R2|]. split; [exact G2|]. split; [exact (extA_trans _ _ _ (ext_extA _ _ X1) X2)|]. intros _. exact (extA_known _ _ v X2 K1).
      + exists s1. split; [reflexivity|]. split; [exact G1|]. split; [exact (ext_extA _ _ X1)|auto].
  Qed.

  Lemma op_w s o : Safe s -> exists s', doOp o s = Some s' /\ Safe s' /\ ExtA s s'.
  Proof.
    intro G. destruct o as [v|v w|f]; cbn [AliasSetModel.doOp].
    - destruct (value_w s v G) as [s' [R [G' [X _]]]]. eauto.
    - unfold AliasSetModel.introduceAlias. destruct (interesting v && interesting w) eqn:Q; [|exists s; split; [reflexivity|]; split; [exact G|apply extA_refl]].
      apply andb_true_iff in Q. destruct Q as [Iv Iw]. destruct (value_w s v G) as [s1 [R1 [G1 [X1 K1]]]]. rewrite R1. destruct (value_w s1 w G1) as [s2 [R2 [G2 [X2 K2]]]]. rewrite R2.
      destruct (mergeValues_w s2 v w (proj1 G2) (extA_known _ _ v X2 (K1 Iv)) (K2 Iw)) as [s3 [R3 [G3 X3]]]. exists s3. split; [exact R3|]. split; [exact (safe_ext _ _ G2 G3 X3)|exact (extA_trans _ _ _ X1 (extA_trans _ _ _ X2 (ext_extA _ _ X3)))].
    - destruct (function_w s f G) as [s' [R [G' [X _]]]]. eauto.
  Qed.

  (** ** merging *)
  Section Merge.
    Variable es : list (nat * list nat).
    Hypothesis Ekey : forall k set, In (k, set) es -> In k set.
    Hypothesis Eall : forall k set x, In (k, set) es -> In x set -> knownE es x.

    Record M (t : ast) : Prop := mkM {
      m_sets : NoDup (akeys (sets t));
      m_heap : NoDup (akeys (heap t));
      m_val : forall v b, afind v (sets t) = Some b -> exists a l, nth_error (boxes t) b = Some a /\ afind a (heap t) = Some l /\ In v l;
      m_mem : forall a l v, afind a (heap t) = Some l -> In v l -> known t v \/ knownE es v
    }.

    Lemma entry_w t e : M t -> In e es -> exists t', mergeEntry fresh (Some t) e = Some t' /\ M t' /\ Ext t t' /\ known t' (fst e).
    Proof.
      destruct e as [k set]. intros H He. unfold mergeEntry. destruct (find (fun x => mem x (akeys (sets t))) set) as [x|] eqn:F.
      - apply find_some in F. destruct F as [Hx Kx]. apply mem_true in Kx.
        destruct (afind x (sets t)) as [b|] eqn:Eb; [|apply afind_None in Eb; contradiction].
        destruct (m_val t H x b Eb) as [a [l [E1 [E2 E3]]]]. unfold insertAll. rewrite E1, E2. eexists. split; [reflexivity|].
        cbn [heap boxes sets analyzed]. set (U := fold_left (fun l x => sinsert x l) set l). assert (InU : forall w, In w U <-> In w set \/ In w l) by (intro w; apply fold_sinsert_in).
        assert (KM : forall v, known t v \/ In v set -> exists b', afind v (fold_left (fun m y => if mem y (akeys m) then m else aset y b m) set (sets t)) = Some b').
        { intros v [[b' Q]|Q]; rewrite reindex; [rewrite Q; eauto|]. destruct (afind v (sets t)); [eauto|]. rewrite (proj2 (mem_true v set) Q). eauto. }
        split; [|split].
        + constructor; cbn [sets heap boxes].
          * assert (G : forall (xs : list nat) (m : list (nat * nat)), NoDup (akeys m) -> NoDup (akeys (fold_left (fun m y => if mem y (akeys m) then m else aset y b m) xs m))).
            { induction xs as [|y xs IH]; intros m Hm; cbn [fold_left]; [exact Hm|]. apply IH. destruct (mem y (akeys m)); [exact Hm|apply NoDup_aset; exact Hm]. }
            apply G, (m_sets t H).
          * apply NoDup_aset, (m_heap t H).
          * intros v b' E. rewrite reindex in E. assert (Q : exists a' l', nth_error (boxes t) b' = Some a' /\ afind a' (heap t) = Some l' /\ (In v l' \/ (a' = a /\ In v set))).
            { destruct (afind v (sets t)) as [b''|] eqn:Ev.
              - injection E as <-. destruct (m_val t H v b'' Ev) as [a' [l' [F1 [F2 F3]]]]. exists a', l'. auto.
              - destruct (mem v set) eqn:Q; [|discriminate]. injection E as <-. apply mem_true in Q. exists a, l. auto. }
            destruct Q as [a' [l' [F1 [F2 F3]]]]. exists a'. rewrite afind_aset. destruct (eq_dec a' a) as [-> |Ne].
            -- exists U. split; [exact F1|]. split; [reflexivity|]. apply InU. destruct F3 as [F3|[_ F3]]; [right; congruence|auto].
            -- exists l'. split; [exact F1|]. split; [exact F2|]. destruct F3 as [F3|[F3 _]]; [exact F3|contradiction].
          * intros a' l' v E Hv. rewrite afind_aset in E. destruct (eq_dec a' a) as [-> |Ne].
            -- injection E as <-. apply InU in Hv. destruct Hv as [Hv|Hv]; [left; apply KM; auto|]. destruct (m_mem t H a l v E2 Hv) as [Q|Q]; [left; apply KM; auto|auto].
            -- destruct (m_mem t H a' l' v E Hv) as [Q|Q]; [left; apply KM; auto|auto].
        + split; [|reflexivity]. cbn [sets]. intros v b' E. rewrite reindex, E. reflexivity.
        + apply KM. right. exact (Ekey k set He).
      - assert (Hno : forall z, In z set -> afind z (sets t) = None).
        { intros z Hz. apply afind_None. intro Q. pose proof (find_none _ _ F z Hz) as R. cbn in R. apply mem_true in Q. congruence. }
        unfold acquire. set (a := fresh (akeys (heap t))).
        assert (Fa : afind a (heap t) = None) by (apply afind_None; apply Hfresh).
        unfold insertAll. cbn [boxes heap sets analyzed].
        assert (NB : nth_error (boxes t ++ [a]) (length (boxes t)) = Some a) by (rewrite nth_error_app2, Nat.sub_diag by lia; reflexivity).
        rewrite NB, (afind_snoc a [] (heap t) Fa a). destruct (eq_dec a a) as [_|]; [|contradiction]. cbn [heap boxes sets analyzed]. eexists. split; [reflexivity|].
        set (U := fold_left (fun l x => sinsert x l) set []). assert (InU : forall w, In w U <-> In w set) by (intro w; unfold U; rewrite fold_sinsert_in; cbn; tauto).
        assert (HF : forall a', afind a' (aset a U (heap t ++ [(a, [])])) = if eq_dec a' a then Some U else afind a' (heap t)).
        { intro a'. rewrite afind_aset. destruct (eq_dec a' a) as [-> |Ne]; [reflexivity|]. rewrite (afind_snoc a [] (heap t) Fa a'). destruct (eq_dec a' a); [contradiction|reflexivity]. }
        assert (OB : forall b x, nth_error (boxes t) b = Some x -> nth_error (boxes t ++ [a]) b = Some x).
        { intros b x Hb. rewrite nth_error_app1; [exact Hb|]. apply nth_error_Some. congruence. }
        assert (KM : forall v, known t v \/ v = k -> exists b', afind v (aset k (length (boxes t)) (sets t)) = Some b').
        { intros v [[b' Q]| ->]; rewrite afind_aset; [destruct (eq_dec v k); eauto|]. destruct (eq_dec k k); [eauto|contradiction]. }
        split; [|split].
        + constructor; cbn [sets heap boxes].
          * apply NoDup_aset, (m_sets t H).
          * apply NoDup_aset. unfold akeys. rewrite map_app. cbn. apply NoDup_app_single; [apply (m_heap t H)|apply Hfresh].
          * intros v b E. rewrite afind_aset in E. destruct (eq_dec v k) as [-> |Ne].
            -- injection E as <-. exists a, U. split; [exact NB|]. rewrite HF. destruct (eq_dec a a); [|contradiction]. split; [reflexivity|]. apply InU. exact (Ekey k set He).
            -- destruct (m_val t H v b E) as [a' [l' [F1 [F2 F3]]]]. exists a', l'. split; [apply OB; exact F1|]. rewrite HF. destruct (eq_dec a' a) as [-> |]; [congruence|auto].
          * intros a' l' v E Hv. rewrite HF in E. destruct (eq_dec a' a) as [-> |Ne].
            -- injection E as <-. right. apply (Eall k set v He). apply InU. exact Hv.
            -- destruct (m_mem t H a' l' v E Hv) as [Q|Q]; [left; apply KM; auto|auto].
        + split; [|reflexivity]. cbn [sets]. intros v b' E. rewrite afind_aset. destruct (eq_dec v k) as [-> |]; [|exact E]. rewrite (Hno k (Ekey k set He)) in E. discriminate.
        + apply KM. auto.
    Qed.

    Lemma entries_w l : forall t, M t -> incl l es -> exists t', fold_left (mergeEntry fresh) l (Some t) = Some t' /\ M t' /\ Ext t t' /\ forall e, In e l -> known t' (fst e).
    Proof.
      induction l as [|e l IH]; intros t H Hi; cbn [fold_left]; [exists t; split; [reflexivity|]; split; [exact H|]; split; [apply ext_refl|intros e []]|].
      destruct (entry_w t e H (Hi e (or_introl eq_refl))) as [t1 [R1 [H1 [X1 K1]]]]. rewrite R1.
      destruct (IH t1 H1) as [t2 [R2 [H2 [X2 K2]]]]; [intros x Hx; apply Hi; right; exact Hx|]. exists t2. split; [exact R2|]. split; [exact H2|]. split; [exact (ext_trans _ _ _ X1 X2)|].
      intros e' [<- |He']; [exact (ext_known _ _ _ X2 K1)|exact (K2 e' He')].
    Qed.
  End Merge.

  Lemma merge_w s o es : Safe s -> Safe o -> Permutation es (entriesOf iter o) -> exists t, mergeWith fresh es (analyzed o) s = Some t /\ Safe t /\ ExtA s t.
  Proof.
    intros [I H] [Io Ho] P.
    assert (IN : forall k set, In (k, set) es <-> exists b, afind k (sets o) = Some b /\ set = match deref o b with Some l => iter l | None => [] end).
    { intros k set. transitivity (In (k, set) (entriesOf iter o)); [split; apply Permutation_in; [exact P|apply Permutation_sym; exact P]|]. unfold entriesOf. rewrite in_map_iff. split.
      - intros [[k' b] [E Q]]. cbn [fst snd] in E. injection E as <- <-. exists b. split; [|reflexivity]. apply In_afind; [apply (w_sets o Io)|exact Q].
      - intros [b [E ->]]. exists (k, b). split; [reflexivity|apply afind_In; exact E]. }
    assert (EK : forall v, known o v -> knownE es v) by (intros v [b E]; eexists; apply IN; eauto).
    assert (Ekey : forall k set, In (k, set) es -> In k set).
    { intros k set Q. apply IN in Q. destruct Q as [b [E ->]]. destruct (w_val o Io k b E) as [a [l [E1 [E2 E3]]]]. unfold deref. rewrite E1, E2. apply (in_iter iter Hiter). exact E3. }
    assert (Eall : forall k set x, In (k, set) es -> In x set -> knownE es x).
    { intros k set x Q Hx. apply IN in Q. destruct Q as [b [E ->]]. destruct (w_val o Io k b E) as [a [l [E1 [E2 E3]]]]. unfold deref in Hx. rewrite E1, E2 in Hx. apply (proj1 (in_iter iter Hiter _ _)) in Hx. apply EK. exact (w_mem o Io a l x E2 Hx). }
    unfold mergeWith. set (s0 := mkA _ _ _ _).
    assert (M0 : M es s0) by (constructor; [exact (w_sets s I)|exact (w_heap s I)|exact (w_val s I)|intros a l v E Hv; left; exact (w_mem s I a l v E Hv)]).
    destruct (entries_w es Ekey Eall es s0 M0 (incl_refl _)) as [t [R [HT [[X1 X2] K]]]]. exists t. split; [exact R|].
    assert (KE : forall v, knownE es v -> known t v) by (intros v [set Q]; exact (K (v, set) Q)).
    unfold s0 in X2; cbn [analyzed] in X2.
    split; [|split; [exact X1|rewrite X2; intros f Hf; apply fold_sinsert_in; auto]]. split.
    - constructor; [exact (m_sets es t HT)|exact (m_heap es t HT)|exact (m_val es t HT)|]. intros a l v E Hv. destruct (m_mem es t HT a l v E Hv) as [Q|Q]; [exact Q|apply KE; exact Q].
    - rewrite X2. intros f v Hf Df Pv. apply fold_sinsert_in in Hf. destruct Hf as [Hf|Hf].
      + apply KE, EK. exact (Ho f v Hf Df Pv).
      + destruct (H f v Hf Df Pv) as [b Hb]. exists b. apply X1. exact Hb.
  Qed.

  Lemma safe_empty : Safe emptyA.
  Proof. split; [exact W_empty|]. cbn. intros f v []. Qed.
End S.
