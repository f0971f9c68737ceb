From Coq Require Import List Bool Arith Lia Permutation.
From Verif Require Import Assoc UtilitiesModel UtilitiesSpec UtilitiesProofs AliasSetModel AliasSetSpec AliasSetProofs.
Import ListNotations.

Lemma in_keep {A} p (x : A) l : forall k, In x (keep p k l) <-> exists i, nth_error l i = Some x /\ p (k + i) = true.
Proof.
  induction l as [|y l IH]; intro k; cbn [keep].
  - split; [intros []|]. intros [[|i] [E _]]; discriminate.
  - assert (Q : In x (keep p (S k) l) <-> exists i, nth_error (y :: l) (S i) = Some x /\ p (k + S i) = true).
    { rewrite IH. split; intros [i [E1 E2]]; exists i; (split; [exact E1|]); replace (k + S i) with (S k + i) in * by lia; exact E2. }
    destruct (p k) eqn:Pk; cbn [In]; rewrite Q; split.
    + intros [<- |[i Hi]]; [exists 0; rewrite Nat.add_0_r; auto|eauto].
    + intros [[|i] Hi]; [left; destruct Hi as [Hi _]; injection Hi as ->; reflexivity|right; eauto].
    + intros [i Hi]. eauto.
    + intros [[|i] Hi]; [rewrite Nat.add_0_r in Hi; destruct Hi; congruence|eauto].
Qed.

Lemma in_combine_seq {A} (r : A) l : forall k i, In (i, r) (combine (seq k (length l)) l) <-> exists j, i = k + j /\ nth_error l j = Some r.
Proof.
  induction l as [|y l IH]; intros k i; cbn [length seq combine In].
  - split; [intros []|]. intros [[|j] [_ E]]; discriminate.
  - rewrite IH. split.
    + intros [E|[j [-> E]]]; [injection E as <- <-; exists 0; split; [lia|reflexivity]|]. exists (S j). split; [lia|exact E].
    + intros [[|j] [-> E]]; [left; injection E as ->; rewrite Nat.add_0_r; reflexivity|]. right. exists j. split; [lia|exact E].
Qed.

Lemma increasing_weaken n m l : forall b, n <= m -> increasing b l n -> increasing b l m.
Proof. induction l as [|x l IH]; intros b H; cbn; [auto|]. intros [H1 [H2 H3]]. repeat split; [exact H1|lia|apply IH; auto]. Qed.

Lemma increasing_combine {A} (p : nat * A -> bool) l : forall k, increasing k (map fst (filter p (combine (seq k (length l)) l))) (k + length l).
Proof.
  induction l as [|y l IH]; intro k; cbn [length seq combine filter]; [exact I|].
  specialize (IH (S k)). replace (S k + length l) with (k + S (length l)) in IH by lia.
  destruct (p (k, y)); cbn [map fst increasing]; [repeat split; [lia|lia|exact IH]|]. apply (increasing_mono _ _ (S k) k); [lia|exact IH].
Qed.

Section M.
  Variable asserts : bool.
  Variable fresh : list nat -> nat.
  Variable iter : list nat -> list nat.
  Hypothesis Hfresh : forall l, ~ In (fresh l) l.
  Hypothesis Hiter : forall l, Permutation (iter l) l.

  Lemma mergeRep_fold ty b r0 (rest : list (nat * nat)) : forall s occ rm, Inv s -> afind r0 (sets s) = Some b -> (forall ir, In ir rest -> known s (snd ir)) ->
    exists s' occ' sel, fold_left (mergeRep iter ty b) rest (Some (s, occ, rm)) = Some (s', occ', rm ++ sel) /\ Inv s' /\ sets s' = sets s /\ analyzed s' = analyzed s
      /\ (forall u t, aliased s u t -> aliased s' u t) /\ (forall ir, In ir rest -> aliased s' r0 (snd ir))
      /\ (forall D L, (forall u t, aliased s u t -> conn D L u t) -> (forall ir, In ir rest -> conn D L r0 (snd ir)) -> forall u t, aliased s' u t -> conn D L u t)
      /\ incl sel (map fst rest) /\ (forall c n, increasing c (map fst rest) n -> increasing c sel n).
  Proof.
    induction rest as [|[i r] rest IH]; intros s occ rm I E0 Kn; cbn [fold_left].
    - exists s, occ, []. rewrite app_nil_r. repeat (split; [first [reflexivity|exact I|solve [auto]]|]). split; [intros ir []|]. split; [auto|]. split; [intros x Hx; exact Hx|auto].
    - unfold mergeRep at 2. cbn [snd fst]. destruct (Kn (i, r) (or_introl eq_refl)) as [b' Eb]. cbn [snd] in Eb. rewrite Eb.
      destruct (mergeBoxes_ok iter Hiter s r0 r b b' I E0 Eb) as [s1 [R [I1 [S1 [N1 A1]]]]]. rewrite R.
      assert (K0 : known s r0) by (exists b; exact E0). assert (Kr : known s r) by (exists b'; exact Eb).
      assert (X : exists occ1 hd, (if mem (ty r) occ then (s1, occ, rm ++ [i]) else (s1, occ ++ [ty r], rm)) = (s1, occ1, rm ++ hd) /\ (hd = [] \/ hd = [i])).
      { destruct (mem (ty r) occ); [exists occ, [i]; auto|]. exists (occ ++ [ty r]), []. rewrite app_nil_r. auto. }
      destruct X as [occ1 [hd [-> Hhd]]].
      destruct (IH s1 occ1 (rm ++ hd)) as [s' [occ' [sel [F [I' [S' [N' [Mo [Al [Up [In1 Inc]]]]]]]]]]].
      + exact I1.
      + rewrite S1. exact E0.
      + intros ir Hir. unfold known. rewrite S1. apply (Kn ir). right. exact Hir.
      + exists s', occ', (hd ++ sel). rewrite F, app_assoc. split; [reflexivity|]. split; [exact I'|]. split; [congruence|]. split; [congruence|].
        split; [intros u t H; apply Mo; apply A1; left; exact H|]. split.
        { intros ir [<- |Hir]; [|exact (Al ir Hir)]. cbn [snd]. apply Mo. apply A1. apply (joined_xy s r0 r I K0 Kr). }
        split.
        { intros D L HU HR. apply Up; [|intros ir Hir; apply HR; right; exact Hir]. intros u t H. apply A1 in H. pose proof (HR (i, r) (or_introl eq_refl)) as Q. cbn [snd] in Q.
          destruct H as [H|[[K1 K2]|[K1 K2]]]; [apply HU; exact H| |].
          - apply c_trans with r0; [apply HU; exact K1|]. apply c_trans with r; [exact Q|apply HU; exact K2].
          - apply c_trans with r; [apply HU; exact K1|]. apply c_trans with r0; [apply c_sym; exact Q|apply HU; exact K2]. }
        split.
        * intros x Hx. apply in_app_iff in Hx. cbn [map fst]. destruct Hx as [Hx|Hx]; [|right; apply In1; exact Hx]. destruct Hhd as [-> | ->]; [destruct Hx|left; destruct Hx as [-> |[]]; reflexivity].
        * intros c n. cbn [map fst increasing]. intros [H1 [H2 H3]]. destruct Hhd as [-> | ->]; cbn [app].
          -- apply (increasing_mono n sel (S i) c); [lia|]. apply Inc. exact H3.
          -- cbn [increasing]. repeat split; [exact H1|exact H2|apply Inc; exact H3].
  Qed.

  Lemma addPointer_ok may ty v reps s : Inv s -> (forall r, In r reps -> known s r) ->
    exists reps' s', addPointer asserts fresh iter may ty v (reps, s) = Some (reps', s') /\ Inv s' /\ Ext s s' /\ known s' v
      /\ (forall u, known s' u <-> known s u \/ u = v)
      /\ (forall u t, aliased s u t -> aliased s' u t)
      /\ (forall D L, (forall u t, aliased s u t -> conn D L u t) -> D v -> (forall r, In r reps -> may v r = true -> L v r) -> forall u t, aliased s' u t -> conn D L u t)
      /\ (forall r, In r reps -> may v r = true -> aliased s' v r)
      /\ incl reps' (v :: reps)
      /\ (In v reps' \/ exists r, In r reps' /\ In r reps /\ may v r = true)
      /\ (forall r, In r reps -> In r reps' \/ (may v r = true /\ exists r', In r' reps' /\ In r' reps /\ may v r' = true)).
  Proof.
    intros I Kn. unfold addPointer.
    assert (IM : forall i r, In (i, r) (filter (fun ir => may v (snd ir)) (combine (seq 0 (length reps)) reps)) <-> nth_error reps i = Some r /\ may v r = true).
    { intros i r. rewrite filter_In, in_combine_seq. cbn [snd]. split.
      - intros [[j [-> E]] M]. auto.
      - intros [E M]. split; [exists i; auto|exact M]. }
    pose proof (increasing_combine (fun ir => may v (snd ir)) reps 0) as Inc. cbn [Nat.add] in Inc.
    destruct (filter (fun ir => may v (snd ir)) (combine (seq 0 (length reps)) reps)) as [|[i0 r0] rest] eqn:EF.
    - destruct (addSingleton_ok asserts fresh Hfresh s v I) as [s' [R [I' [X [Kv [A KN]]]]]]. rewrite R. exists (reps ++ [v]), s'. split; [reflexivity|]. split; [exact I'|]. split; [exact X|]. split; [exact Kv|]. split; [exact KN|].
      assert (No : forall r, In r reps -> may v r = true -> False).
      { intros r Hr M. apply In_nth_error in Hr. destruct Hr as [i Hi]. exact (proj2 (IM i r) (conj Hi M)). }
      split; [intros u t H; apply A; left; exact H|]. split.
      { intros D L HU Dv _ u t H. apply A in H. destruct H as [H|[-> ->]]; [apply HU; exact H|apply c_refl; exact Dv]. }
      split; [intros r Hr M; destruct (No r Hr M)|]. split; [intros x Hx; apply in_app_iff in Hx; destruct Hx as [Hx|[<- |[]]]; [right; exact Hx|left; reflexivity]|].
      split; [left; apply in_app_iff; right; left; reflexivity|]. intros r Hr. left. apply in_app_iff. auto.
    - assert (H0 : nth_error reps i0 = Some r0 /\ may v r0 = true) by (apply IM; left; reflexivity). destruct H0 as [N0 M0].
      assert (R0 : In r0 reps) by (eapply nth_error_In; exact N0).
      destruct (Kn r0 R0) as [b Eb]. destruct rest as [|ir1 rest'].
      + rewrite Eb. destruct (attach_ok iter Hiter s v r0 b I Eb) as [s' [R [I' [X [Kv [KN [Al [Mo Up]]]]]]]]. rewrite R. eexists _, s'. split; [reflexivity|].
        split; [exact I'|]. split; [exact X|]. split; [exact Kv|]. split; [exact KN|]. split; [exact Mo|].
        split; [intros D L HU Dv HL; apply (Up D L HU Dv); apply HL; auto|].
        split.
        { intros r Hr M. apply In_nth_error in Hr. destruct Hr as [i Hi]. destruct (proj2 (IM i r) (conj Hi M)) as [E|[]]. injection E as <- <-. exact Al. }
        destruct (ty v =? ty r0).
        * split; [intros x Hx; right; exact Hx|]. split; [right; exists r0; auto|]. intros r Hr. auto.
        * split; [intros x Hx; apply in_app_iff in Hx; destruct Hx as [Hx|[<- |[]]]; [right; exact Hx|left; reflexivity]|].
          split; [left; apply in_app_iff; right; left; reflexivity|]. intros r Hr. left. apply in_app_iff. auto.
      + rewrite Eb. set (rest := ir1 :: rest') in *.
        assert (KR : forall ir, In ir rest -> known s (snd ir)).
        { intros [i r] Hir. apply Kn. cbn [snd]. eapply nth_error_In. apply (IM i r). right. exact Hir. }
        destruct (mergeRep_fold ty b r0 rest s [ty r0] [] I Eb KR) as [s1 [occ [sel [F [I1 [S1 [N1 [Mo1 [Al1 [Up1 [In1 Inc1]]]]]]]]]]].
        cbn [app] in F. rewrite F.
        assert (Eb1 : afind r0 (sets s1) = Some b) by (rewrite S1; exact Eb).
        destruct (attach_ok iter Hiter s1 v r0 b I1 Eb1) as [s2 [R [I2 [X [Kv [KN [Al [Mo Up]]]]]]]]. rewrite R.
        cbn [map fst increasing] in Inc. destruct Inc as [_ [L0 IncR]].
        assert (IncS : increasing (S i0) sel (length reps)) by (apply Inc1; exact IncR).
        rewrite erase_ok by (apply (increasing_mono _ _ (S i0) 0); [lia|exact IncS]).
        eexists _, s2. split; [reflexivity|]. split; [exact I2|].
        split; [destruct X as [X1 X2]; split; [intros u b' E; apply X1; rewrite S1; exact E|congruence]|]. split; [exact Kv|].
        split; [intro u; rewrite KN; unfold known; rewrite S1; reflexivity|].
        split; [intros u t H; apply Mo, Mo1; exact H|].
        split.
        { intros D L HU Dv HL. apply (Up D L); [|exact Dv|apply HL; auto]. apply Up1; [exact HU|]. intros [i r] Hir. cbn [snd].
          destruct (proj1 (IM i r) (or_intror Hir)) as [Ni Mi]. apply c_trans with v; [apply c_sym, c_link, HL; auto|]. apply c_link, HL; [eapply nth_error_In; exact Ni|exact Mi]. }
        split.
        { intros r Hr M. apply In_nth_error in Hr. destruct Hr as [i Hi]. destruct (proj2 (IM i r) (conj Hi M)) as [E|Hir]; [injection E as <- <-; exact Al|].
          apply (aliased_trans s2 v r0 r I2 Al). apply Mo. exact (Al1 (i, r) Hir). }
        assert (W : forall r, In r (without sel reps) <-> exists i, nth_error reps i = Some r /\ ~ In i sel).
        { intro r. unfold without. rewrite in_keep. cbn [Nat.add]. split; intros [i [E1 E2]]; exists i; (split; [exact E1|]).
          - intro Q. apply negb_true_iff in E2. assert (existsb (Nat.eqb i) sel = true); [|congruence]. apply existsb_exists. exists i. split; [exact Q|apply Nat.eqb_refl].
          - apply negb_true_iff. apply notin_existsb. exact E2. }
        assert (W0 : In r0 (without sel reps)).
        { apply W. exists i0. split; [exact N0|]. intro Q. pose proof (increasing_ge _ _ _ _ IncS Q). lia. }
        assert (WS : forall r, In r (without sel reps) -> In r reps) by (intros r Hr; apply W in Hr; destruct Hr as [i [E _]]; eapply nth_error_In; exact E).
        assert (WR : forall r, In r reps -> In r (without sel reps) \/ may v r = true).
        { intros r Hr. apply In_nth_error in Hr. destruct Hr as [i Hi]. destruct (in_dec Nat.eq_dec i sel) as [Q|Q]; [|left; apply W; eauto]. right.
          apply In1 in Q. apply in_map_iff in Q. destruct Q as [[i' r'] [E Q]]. cbn in E. subst i'. destruct (proj1 (IM i r') (or_intror Q)) as [Ni Mi]. congruence. }
        destruct (mem (ty v) occ).
        * split; [intros x Hx; right; apply WS; exact Hx|]. split; [right; exists r0; auto|]. intros r Hr. destruct (WR r Hr) as [H|H]; [auto|]. right. split; [exact H|]. exists r0. auto.
        * split; [intros x Hx; apply in_app_iff in Hx; destruct Hx as [Hx|[<- |[]]]; [right; apply WS; exact Hx|left; reflexivity]|].
          split; [left; apply in_app_iff; right; left; reflexivity|]. intros r Hr. destruct (WR r Hr) as [H|H]; [left; apply in_app_iff; auto|]. right. split; [exact H|]. exists r0. split; [apply in_app_iff; auto|auto].
  Qed.

  (** ** the module *)
  Variables isPtr isNull isInst isFunc isGlob decl : nat -> bool.
  Variable castOp : nat -> option nat.
  Variable globalsOf : nat -> list nat.
  Variable fnInstrs : nat -> list instr.
  Variable fnArgs : nat -> list nat.
  Variable ty : nat -> nat.
  Variable may : nat -> nat -> nat -> bool.
  Variable users : nat -> list user.
  Variable fnOf : nat -> option nat.
  Notation interesting := (interesting isPtr isNull).
  Notation fnLink := (fnLink isPtr isFunc castOp fnInstrs).
  Notation pointerOf := (pointerOf isPtr isNull isInst isFunc globalsOf fnInstrs fnArgs).
  Notation mayLink := (mayLink isPtr isNull isInst isFunc globalsOf fnInstrs fnArgs may).
  Notation equivMay := (equivMay isPtr isNull isInst isFunc globalsOf fnInstrs fnArgs may).
  Notation userLink := (userLink isPtr isNull isFunc users).
  Notation fnEvents := (fnEvents iter isPtr isNull isInst isFunc castOp globalsOf fnInstrs fnArgs).
  Notation execEvent := (execEvent asserts fresh iter ty may).
  Notation computeFunction := (computeFunction asserts fresh iter isPtr isNull isInst isFunc decl castOp globalsOf fnInstrs fnArgs ty may).
  Notation visitUser := (visitUser asserts fresh iter isPtr isNull isInst isFunc decl castOp globalsOf fnInstrs fnArgs ty may).
  Notation computeValue := (computeValue asserts fresh iter isPtr isNull isInst isFunc isGlob decl castOp globalsOf fnInstrs fnArgs ty may users fnOf).
  Notation introduceAlias := (introduceAlias asserts fresh iter isPtr isNull isInst isFunc isGlob decl castOp globalsOf fnInstrs fnArgs ty may users fnOf).

  (** the pointers of the events are the pointers of the function, the links its links *)
  Definition evPtr (es : list event) v := In (EPtr v) es.
  Definition evLink (es : list event) v w := In (ELink v w) es.

  Lemma ptr_events f v : evPtr (fnEvents f) v <-> pointerOf f v.
  Proof.
    unfold evPtr, AliasSetModel.fnEvents, AliasSetSpec.pointerOf. rewrite !in_app_iff, in_flat_map, !in_map_iff. split.
    - intros [[i [Hi He]]|[[x [E Hx]]|[x [E Hx]]]].
      + unfold instrEvents in He. rewrite !in_app_iff in He. destruct He as [He|[He|[He|He]]].
        * left. exists i. destruct (isPtr (iV i)) eqn:P; [|destruct He]. destruct He as [E|[]]. injection E as <-. auto.
        * exfalso. unfold storeEvents in He. destruct (iStore i) as [[svo spo]|]; [|destruct He]. destruct (isPtr svo); [|destruct He].
          destruct (isFunc svo), (castOp svo) as [rhs|]; cbn in He; try destruct (isPtr rhs); cbn in He; intuition discriminate.
        * right. left. exists i. destruct (iCallee i) as [c|]; [|destruct He]. destruct (isFunc c) eqn:P1; [destruct He|]. destruct (interesting c) eqn:P2; [|destruct He]. destruct (isInst c) eqn:P3; [destruct He|].
          destruct He as [E|[]]. injection E as <-. auto.
        * right. left. exists i. apply in_flat_map in He. destruct He as [o [Ho He]]. unfold opEvents in He. destruct (isInst o) eqn:P3; [destruct He|]. destruct (interesting o) eqn:P2; [|destruct He].
          destruct He as [E|[]]. injection E as <-. auto.
      + right. right. left. injection E as <-. apply filter_In in Hx. exact Hx.
      + right. right. right. injection E as <-. apply (proj1 (in_iter iter Hiter _ _)) in Hx. apply (proj1 (fold_sinsert_in _ _ _)) in Hx. destruct Hx as [Hx|[]]. apply in_flat_map in Hx. destruct Hx as [o [Ho Hx]].
        apply in_flat_map in Ho. destruct Ho as [i [Hi Ho]]. eauto.
    - intros [[i [Hi [-> P]]]|[[i [Hi [Ho [P1 P2]]]]|[[Ha P]|[i [o [Hi [Ho Hg]]]]]]].
      + left. exists i. split; [exact Hi|]. unfold instrEvents. rewrite P. left. reflexivity.
      + left. exists i. split; [exact Hi|]. unfold instrEvents. rewrite !in_app_iff. destruct Ho as [Ho|[Ho P3]].
        * right. right. right. apply in_flat_map. exists v. split; [exact Ho|]. unfold opEvents. rewrite P1, P2. left. reflexivity.
        * right. right. left. rewrite Ho, P1, P2, P3. left. reflexivity.
      + right. left. exists v. split; [reflexivity|]. apply filter_In. auto.
      + right. right. exists v. split; [reflexivity|]. apply (in_iter iter Hiter). apply fold_sinsert_in. left. apply in_flat_map. exists o. split; [|exact Hg]. apply in_flat_map. eauto.
  Qed.

  Lemma link_events f v w : evLink (fnEvents f) v w <-> fnLink f v w.
  Proof.
    unfold evLink, AliasSetModel.fnEvents, AliasSetSpec.fnLink. rewrite !in_app_iff, in_flat_map, !in_map_iff. split.
    - intros [[i [Hi He]]|[[x [E Hx]]|[x [E Hx]]]]; [|discriminate|discriminate].
      unfold instrEvents in He. rewrite !in_app_iff in He. destruct He as [He|[He|[He|He]]].
      + destruct (isPtr (iV i)); [|destruct He]. destruct He as [E|[]]; discriminate.
      + unfold storeEvents in He. destruct (iStore i) as [[svo spo]|] eqn:ES; [|destruct He]. exists i, svo. destruct (isPtr svo) eqn:P; [|destruct He].
        apply in_app_iff in He. destruct He as [He|He].
        * destruct (isFunc svo) eqn:Pf; [|destruct He]. destruct He as [E|[E|[E|[]]]]; try discriminate. injection E as <- <-. auto 10.
        * destruct (castOp svo) as [rhs|] eqn:Ec; [|destruct He]. cbn in He. destruct He as [E|He]; [discriminate|]. apply in_app_iff in He. destruct He as [He|He].
          -- destruct (isPtr rhs) eqn:Pr; [|destruct He]. destruct He as [E|[E|[]]]; [discriminate|]. injection E as <- <-. split; [exact Hi|]. split; [exact ES|]. split; [first [reflexivity|assumption]|]. right. exists rhs. auto.
          -- destruct He as [E|[E|[]]]; [discriminate|]. injection E as <- <-. split; [exact Hi|]. split; [exact ES|]. split; [first [reflexivity|assumption]|]. right. exists rhs. auto.
      + destruct (iCallee i) as [c|]; [|destruct He]. destruct (negb (isFunc c) && interesting c && negb (isInst c)); [|destruct He]. destruct He as [E|[]]; discriminate.
      + apply in_flat_map in He. destruct He as [o [Ho He]]. unfold opEvents in He. destruct (negb (isInst o) && interesting o); [|destruct He]. destruct He as [E|[]]; discriminate.
    - intros [i [svo [Hi [ES [P Hc]]]]]. left. exists i. split; [exact Hi|]. unfold instrEvents. rewrite !in_app_iff. right. left. unfold storeEvents. rewrite ES, P. rewrite in_app_iff.
      destruct Hc as [[Pf ->]|[rhs [Ec Hc]]]; [left; rewrite Pf; cbn; auto|]. right. rewrite Ec. destruct Hc as [-> |[-> Pr]].
      + apply in_app_iff. right. apply in_app_iff. right. cbn. auto.
      + apply in_app_iff. right. apply in_app_iff. left. rewrite Pr. cbn. auto.
  Qed.

  (** every value of a link event was introduced by an earlier ESing *)
  Fixpoint linksOk (seen : list nat) (es : list event) : Prop :=
    match es with
    | [] => True
    | ESing v :: r => linksOk (v :: seen) r
    | ELink v w :: r => In v seen /\ In w seen /\ linksOk seen r
    | EPtr v :: r => linksOk seen r
    end.
  Lemma linksOk_mono es : forall a b, incl a b -> linksOk a es -> linksOk b es.
  Proof.
    induction es as [|[v|v w|v] es IH]; intros a b H; cbn; auto.
    - apply IH. intros x [<- |Hx]; [left; reflexivity|right; apply H; exact Hx].
    - intros [H1 [H2 H3]]. repeat split; [apply H; exact H1|apply H; exact H2|apply (IH a b); auto].
    - apply IH. exact H.
  Qed.
  Lemma linksOk_app a : forall seen b, linksOk seen a -> linksOk [] b -> linksOk seen (a ++ b).
  Proof.
    induction a as [|[v|v w|v] a IH]; intros seen b Ha Hb; cbn [app].
    - apply (linksOk_mono b [] seen); [intros x []|exact Hb].
    - cbn in *. apply IH; auto.
    - cbn in *. intuition.
    - cbn in *. apply IH; auto.
  Qed.
  Lemma linksOk_map l : linksOk [] (map EPtr l).
  Proof. induction l; cbn; auto. Qed.
  Lemma linksOk_flat {A} (g : A -> list event) l : (forall x, linksOk [] (g x)) -> linksOk [] (flat_map g l).
  Proof. intro H. induction l as [|x l IH]; cbn [flat_map]; [exact I|]. apply linksOk_app; auto. Qed.
  Lemma linksOk_fn f : linksOk [] (fnEvents f).
  Proof.
    unfold AliasSetModel.fnEvents. apply linksOk_app; [|apply linksOk_app; apply linksOk_map]. apply linksOk_flat. intro i. unfold instrEvents.
    apply linksOk_app; [destruct (isPtr (iV i)); cbn; auto|]. apply linksOk_app.
    - unfold storeEvents. destruct (iStore i) as [[svo spo]|]; [|exact I]. destruct (isPtr svo); [|exact I]. apply linksOk_app; [destruct (isFunc svo); cbn; auto 10|].
      destruct (castOp svo) as [rhs|]; [|exact I]. destruct (isPtr rhs); cbn; auto 10.
    - apply linksOk_app; [destruct (iCallee i) as [c|]; [|exact I]; destruct (negb (isFunc c) && interesting c && negb (isInst c)); cbn; auto|].
      apply linksOk_flat. intro o. unfold opEvents. destruct (negb (isInst o) && interesting o); cbn; auto.
  Qed.

  (** running the events of [f] *)
  Definition EqOn (f : nat) (pts : list nat) : Prop :=
    (forall v, In v pts -> may f v v = true) /\ (forall v w, In v pts -> In w pts -> may f v w = true -> may f w v = true)
    /\ (forall u v w, In u pts -> In v pts -> In w pts -> may f u v = true -> may f v w = true -> may f u w = true).

  Definition ptrs (es : list event) : list nat := flat_map (fun e => match e with EPtr v => [v] | _ => [] end) es.
  Lemma in_ptrs es v : In v (ptrs es) <-> In (EPtr v) es.
  Proof.
    unfold ptrs. rewrite in_flat_map. split.
    - intros [[x|x y|x] [He Hv]]; cbn in Hv; try tauto. destruct Hv as [-> |[]]. exact He.
    - intro H. exists (EPtr v). split; [exact H|left; reflexivity].
  Qed.

  Lemma exec_ok f (es : list event) : forall reps s done seen, Inv s -> incl reps done -> (forall v, In v done -> known s v) -> (forall v, In v seen -> known s v) -> linksOk seen es ->
    exists reps' s', fold_left (execEvent f) es (Some (reps, s)) = Some (reps', s') /\ Inv s' /\ Ext s s'
      /\ (forall v, evPtr es v -> known s' v)
      /\ (forall u t, aliased s u t -> aliased s' u t)
      /\ (forall D L, (forall u t, aliased s u t -> conn D L u t) -> (forall v, known s' v -> D v) ->
           (forall v w, evLink es v w -> L v w) -> (forall v w, In v (done ++ ptrs es) -> In w (done ++ ptrs es) -> may f v w = true -> L v w) -> forall u t, aliased s' u t -> conn D L u t)
      /\ (forall v w, evLink es v w -> aliased s' v w)
      /\ (EqOn f (done ++ ptrs es) ->
           (forall p, In p done -> exists r, In r reps /\ may f p r = true /\ aliased s p r) ->
           (forall r q, In r reps -> In q reps -> may f r q = true -> aliased s r q) ->
           (forall p, In p (done ++ ptrs es) -> exists r, In r reps' /\ may f p r = true /\ aliased s' p r) /\
           (forall r q, In r reps' -> In q reps' -> may f r q = true -> aliased s' r q) /\ incl reps' (done ++ ptrs es)).
  Proof.
    induction es as [|e es IH]; intros reps s done seen I Hr Kd Ks LO; cbn [fold_left].
    - exists reps, s. split; [reflexivity|]. split; [exact I|]. split; [apply ext_refl|]. split; [intros v []|]. split; [auto|]. split; [intros D L HU _ _ _; exact HU|]. split; [intros v w []|].
      cbn [ptrs flat_map]. rewrite app_nil_r. auto.
    - destruct e as [v|v w|v].
      + (* ESing *)
        cbn [AliasSetModel.execEvent]. destruct (addSingleton_ok asserts fresh Hfresh s v I) as [s1 [R [I1 [X1 [Kv [A1 KN]]]]]]. rewrite R.
        assert (Mo : forall u t, aliased s u t -> aliased s1 u t) by (intros u t H; apply A1; left; exact H).
        destruct (IH reps s1 done (v :: seen)) as [reps' [s' [F [I' [X' [KP [M' [U' [L' T']]]]]]]]].
        * exact I1.
        * exact Hr.
        * intros x Hx. apply (ext_known s s1 x X1). apply Kd. exact Hx.
        * intros x [<- |Hx]; [exact Kv|]. apply (ext_known s s1 x X1). apply Ks. exact Hx.
        * exact LO.
        * exists reps', s'. split; [exact F|]. split; [exact I'|]. split; [exact (ext_trans _ _ _ X1 X')|]. split; [intros x [E|Hx]; [discriminate|apply KP; exact Hx]|].
          split; [auto|]. split.
          { intros D L HU HD HL HM. apply U'; auto.
            - intros u t H. apply A1 in H. destruct H as [H|[-> ->]]; [apply HU; exact H|]. apply c_refl, HD. exact (ext_known s1 s' v X' Kv).
            - intros a b Hab. apply HL. right. exact Hab. }
          split; [intros a b [E|Hab]; [discriminate|apply L'; exact Hab]|].
          intros EQ C1 C2. change (ptrs (ESing v :: es)) with (ptrs es) in *. apply T'; [exact EQ| |].
          -- intros p Hp. destruct (C1 p Hp) as [r [H1 [H2 H3]]]. exists r. auto.
          -- intros r q H1 H2 H3. apply Mo. apply C2; auto.
      + (* ELink *)
        cbn [AliasSetModel.execEvent]. cbn [linksOk] in LO. destruct LO as [Sv [Sw LO]].
        destruct (mergeValues_ok iter Hiter s v w I (Ks v Sv) (Ks w Sw)) as [s1 [R [I1 [S1 [N1 A1]]]]]. rewrite R.
        assert (X1 : Ext s s1) by (split; [intros x b; rewrite S1; auto|exact N1]).
        assert (Mo : forall u t, aliased s u t -> aliased s1 u t) by (intros u t H; apply A1; left; exact H).
        destruct (IH reps s1 done seen) as [reps' [s' [F [I' [X' [KP [M' [U' [L' T']]]]]]]]].
        * exact I1.
        * exact Hr.
        * intros x Hx. apply (ext_known s s1 x X1). apply Kd. exact Hx.
        * intros x Hx. apply (ext_known s s1 x X1). apply Ks. exact Hx.
        * exact LO.
        * exists reps', s'. split; [exact F|]. split; [exact I'|]. split; [exact (ext_trans _ _ _ X1 X')|]. split; [intros x [E|Hx]; [discriminate|apply KP; exact Hx]|].
          split; [auto|]. split.
          { intros D L HU HD HL HM. apply U'; auto.
            - intros u t H. apply A1 in H. assert (Lvw : conn D L v w) by (apply c_link, HL; left; reflexivity). destruct H as [H|[[K1 K2]|[K1 K2]]]; [apply HU; exact H| |].
              + apply c_trans with v; [apply HU; exact K1|]. apply c_trans with w; [exact Lvw|apply HU; exact K2].
              + apply c_trans with w; [apply HU; exact K1|]. apply c_trans with v; [apply c_sym; exact Lvw|apply HU; exact K2].
            - intros a b Hab. apply HL. right. exact Hab. }
          split.
          { intros a b [E|Hab]; [|apply L'; exact Hab]. injection E as <- <-. apply M'. apply A1. apply joined_xy; auto. }
          intros EQ C1 C2. change (ptrs (ELink v w :: es)) with (ptrs es) in *. apply T'; [exact EQ| |].
          -- intros p Hp. destruct (C1 p Hp) as [r [H1 [H2 H3]]]. exists r. auto.
          -- intros r q H1 H2 H3. apply Mo. apply C2; auto.
      + (* EPtr *)
        cbn [AliasSetModel.execEvent].
        destruct (addPointer_ok (may f) ty v reps s I) as [reps1 [s1 [R [I1 [X1 [Kv [KN [Mo [Up [Al [Inc [Rep Old]]]]]]]]]]]].
        { intros r H. apply Kd. apply Hr. exact H. }
        rewrite R.
        destruct (IH reps1 s1 (done ++ [v]) seen) as [reps' [s' [F [I' [X' [KP [M' [U' [L' T']]]]]]]]].
        * exact I1.
        * intros x Hx. apply Inc in Hx. apply in_app_iff. destruct Hx as [<- |Hx]; [right; left; reflexivity|left; apply Hr; exact Hx].
        * intros x Hx. apply in_app_iff in Hx. destruct Hx as [Hx|[<- |[]]]; [|exact Kv]. apply (ext_known s s1 x X1). apply Kd. exact Hx.
        * intros x Hx. apply (ext_known s s1 x X1). apply Ks. exact Hx.
        * exact LO.
        * assert (Pe : (done ++ [v]) ++ ptrs es = done ++ ptrs (EPtr v :: es)) by (rewrite <- app_assoc; reflexivity).
          exists reps', s'. split; [exact F|]. split; [exact I'|]. split; [exact (ext_trans _ _ _ X1 X')|].
          split; [intros x [E|Hx]; [injection E as <-; exact (ext_known s1 s' v X' Kv)|apply KP; exact Hx]|].
          split; [auto|]. split.
          { intros D L HU HD HL HM. apply U'; auto.
            - apply Up; [exact HU|apply HD; exact (ext_known s1 s' v X' Kv)|]. intros r H M. apply HM; [| |exact M].
              + apply in_app_iff. right. left. reflexivity.
              + apply in_app_iff. left. apply Hr. exact H.
            - intros a b Hab. apply HL. right. exact Hab.
            - rewrite Pe. exact HM. }
          split; [intros a b [E|Hab]; [discriminate|apply L'; exact Hab]|].
          intros EQ C1 C2. rewrite Pe in T'. apply T'; [exact EQ| |].
          -- destruct EQ as [Rf [Sy Tr]].
             assert (Vin : In v (done ++ ptrs (EPtr v :: es))) by (apply in_app_iff; right; left; reflexivity).
             assert (Rin : forall r, In r reps -> In r (done ++ ptrs (EPtr v :: es))) by (intros r Hq; apply in_app_iff; left; apply Hr; exact Hq).
             intros p Hp. apply in_app_iff in Hp. destruct Hp as [Hp|[<- |[]]].
             ++ assert (Pin : In p (done ++ ptrs (EPtr v :: es))) by (apply in_app_iff; left; exact Hp).
                destruct (C1 p Hp) as [r [H1 [H2 H3]]]. destruct (Old r H1) as [H|[H4 [r' [H5 [H6 H7]]]]]; [exists r; auto|].
                exists r'. split; [exact H5|]. assert (Hrr : may f r r' = true) by (apply (Tr r v r'); auto). split; [apply (Tr p r r'); auto|].
                apply (aliased_trans s1 p r r' I1); [apply Mo; exact H3|]. apply (aliased_trans s1 r v r' I1); [apply (aliased_sym s1 _ _ I1)|]; apply Al; auto.
             ++ destruct Rep as [H|[r [H1 [H2 H3]]]]; [exists v; split; [exact H|]; split; [apply Rf; exact Vin|apply aliased_refl; auto]|]. exists r. split; [exact H1|]. split; [exact H3|]. apply Al; auto.
          -- destruct EQ as [Rf [Sy Tr]].
             assert (Vin : In v (done ++ ptrs (EPtr v :: es))) by (apply in_app_iff; right; left; reflexivity).
             assert (Rin : forall r, In r reps -> In r (done ++ ptrs (EPtr v :: es))) by (intros r Hq; apply in_app_iff; left; apply Hr; exact Hq).
             intros r q H1 H2 H3. apply Inc in H1. apply Inc in H2. destruct H1 as [<- |H1], H2 as [<- |H2].
             ++ apply aliased_refl; auto.
             ++ apply Al; auto.
             ++ apply (aliased_sym s1 _ _ I1). apply Al; [exact H1|]. apply Sy; auto.
             ++ apply Mo. apply C2; auto.
  Qed.

  (** ** analysing functions and values *)
  Definition ExtA (s s' : ast) : Prop := (forall v b, afind v (sets s) = Some b -> afind v (sets s') = Some b) /\ incl (analyzed s) (analyzed s').
  Lemma extA_refl s : ExtA s s. Proof. split; [auto|apply incl_refl]. Qed.
  Lemma extA_trans a b c : ExtA a b -> ExtA b c -> ExtA a c.
  Proof. intros [H1 H2] [H3 H4]. split; [auto|eapply incl_tran; eauto]. Qed.
  Lemma extA_known s s' v : ExtA s s' -> known s v -> known s' v.
  Proof. intros [H _] [b K]. exists b. auto. Qed.

  (** what the state contains for the analysed functions *)
  Record Good (s : ast) : Prop := mkGood {
    g_inv : Inv s;
    g_known : forall f v, In f (analyzed s) -> decl f = false -> pointerOf f v -> known s v;
    g_link : forall f v w, In f (analyzed s) -> decl f = false -> fnLink f v w -> aliased s v w;
    g_may : forall f v w, In f (analyzed s) -> decl f = false -> equivMay f -> mayLink f v w -> aliased s v w
  }.
  (** [s'] comes from [s] by steps justified by [L] *)
  Definition Step (L : nat -> nat -> Prop) (s s' : ast) : Prop :=
    ExtA s s' /\ (forall u t, aliased s u t -> aliased s' u t)
    /\ forall L' : nat -> nat -> Prop, (forall v w, L v w -> L' v w) -> (forall f v w, In f (analyzed s') -> decl f = false -> fnLink f v w \/ mayLink f v w -> L' v w) ->
         forall D, (forall u t, aliased s u t -> conn D L' u t) -> (forall v, known s' v -> D v) -> forall u t, aliased s' u t -> conn D L' u t.

  Lemma step_refl L s : Step L s s.
  Proof. split; [apply extA_refl|]. split; [auto|]. intros; auto. Qed.
  Lemma step_trans L s1 s2 s3 : Step L s1 s2 -> Step L s2 s3 -> Step L s1 s3.
  Proof.
    intros [X1 [M1 U1]] [X2 [M2 U2]]. split; [exact (extA_trans _ _ _ X1 X2)|]. split; [auto|]. intros L' HL HF D HU HD. apply U2; auto. apply U1; auto.
    - intros f v w Hf. apply HF. apply (proj2 X2). exact Hf.
    - intros v Kv. apply HD. exact (extA_known _ _ v X2 Kv).
  Qed.
  Lemma step_weaken (L L2 : nat -> nat -> Prop) s s' : (forall v w, L v w -> L2 v w) -> Step L s s' -> Step L2 s s'.
  Proof. intros H [X [M U]]. split; [exact X|]. split; [exact M|]. intros L' HL. apply U. auto. Qed.

  Lemma good_mono s s' : Good s -> Inv s' -> analyzed s' = analyzed s -> (forall v, known s v -> known s' v) -> (forall u t, aliased s u t -> aliased s' u t) -> Good s'.
  Proof.
    intros G I' N K M. constructor; [exact I'| | |]; rewrite N; intros.
    - apply K. eapply (g_known s G); eauto.
    - apply M. eapply (g_link s G); eauto.
    - apply M. eapply (g_may s G); eauto.
  Qed.

  Definition none (v w : nat) : Prop := False.

  Lemma single_step s v : Good s -> exists s', addSingleton asserts fresh v s = Some s' /\ Good s' /\ known s' v /\ Step none s s' /\ analyzed s' = analyzed s.
  Proof.
    intro G. destruct (addSingleton_ok asserts fresh Hfresh s v (g_inv s G)) as [s1 [R [I1 [X1 [Kv [A1 KN]]]]]]. exists s1. split; [exact R|].
    assert (Mo : forall u t, aliased s u t -> aliased s1 u t) by (intros u t H; apply A1; left; exact H).
    split; [apply (good_mono s); auto; [apply X1|intros x; apply (ext_known s s1 x X1)]|]. split; [exact Kv|]. split; [|apply X1].
    split; [destruct X1 as [E1 E2]; split; [exact E1|rewrite E2; apply incl_refl]|]. split; [exact Mo|].
    intros L' _ _ D HU HD u t H. apply A1 in H. destruct H as [H|[-> ->]]; [apply HU; exact H|apply c_refl, HD; exact Kv].
  Qed.

  Lemma merge_step s x y : Good s -> known s x -> known s y -> exists s', mergeValues iter x y s = Some s' /\ Good s' /\ aliased s' x y /\ Step (fun v w => v = x /\ w = y) s s' /\ analyzed s' = analyzed s.
  Proof.
    intros G Kx Ky. destruct (mergeValues_ok iter Hiter s x y (g_inv s G) Kx Ky) as [s1 [R [I1 [S1 [N1 A1]]]]]. exists s1. split; [exact R|].
    assert (Mo : forall u t, aliased s u t -> aliased s1 u t) by (intros u t H; apply A1; left; exact H).
    split; [apply (good_mono s); auto; intros z; unfold known; rewrite S1; auto|]. split; [apply A1; apply joined_xy; auto; apply (g_inv s G)|]. split; [|exact N1].
    split; [split; [intros z b; rewrite S1; auto|rewrite N1; apply incl_refl]|]. split; [exact Mo|].
    intros L' HL _ D HU HD u t H. apply A1 in H. assert (Lvw : conn D L' x y) by (apply c_link, HL; auto). destruct H as [H|[[K1 K2]|[K1 K2]]]; [apply HU; exact H| |].
    - apply c_trans with x; [apply HU; exact K1|]. apply c_trans with y; [exact Lvw|apply HU; exact K2].
    - apply c_trans with y; [apply HU; exact K1|]. apply c_trans with x; [apply c_sym; exact Lvw|apply HU; exact K2].
  Qed.

  Lemma function_step s f : Good s -> exists s', computeFunction f s = Some s' /\ Good s' /\ In f (analyzed s') /\ Step none s s'.
  Proof.
    intro G. unfold AliasSetModel.computeFunction. destruct (mem f (analyzed s)) eqn:E.
    - apply mem_true in E. exists s. split; [reflexivity|]. split; [exact G|]. split; [exact E|apply step_refl].
    - set (s0 := mkA (heap s) (boxes s) (sets s) (analyzed s ++ [f])).
      assert (I0 : Inv s0) by (destruct (g_inv s G); constructor; assumption).
      assert (A0 : forall u t, aliased s0 u t <-> aliased s u t) by (intros; reflexivity).
      destruct (decl f) eqn:Df.
      + exists s0. split; [reflexivity|]. split.
        * constructor; [exact I0| | |]; cbn [analyzed s0]; intros g v; [intros Hg|intros w Hg|intros w Hg]; apply in_app_iff in Hg; destruct Hg as [Hg|[<- |[]]]; try (intros; congruence); intros.
          -- apply (g_known s G g v); auto.
          -- apply A0. apply (g_link s G g v w); auto.
          -- apply A0. apply (g_may s G g v w); auto.
        * split; [cbn; apply in_app_iff; right; left; reflexivity|]. split; [split; [auto|cbn; apply incl_appl, incl_refl]|]. split; [auto|]. intros L' _ _ D HU _. exact HU.
      + destruct (exec_ok f (fnEvents f) [] s0 [] [] I0) as [reps' [s' [F [I' [X' [KP [M' [U' [L' T']]]]]]]]].
        * apply incl_refl.
        * intros v [].
        * intros v [].
        * apply linksOk_fn.
        * rewrite F. exists s'. split; [reflexivity|]. destruct X' as [X1 X2]. cbn [analyzed s0] in X2.
          assert (Kmono : forall v, known s v -> known s' v) by (intros v [b K]; exists b; apply X1; exact K).
          split.
          { constructor; [exact I'| | |]; rewrite X2; intros g v; [intros Hg|intros w Hg|intros w Hg]; apply in_app_iff in Hg.
            - intros Dg Pg. destruct Hg as [Hg|[<- |[]]]; [apply Kmono, (g_known s G g v); auto|]. apply KP. apply ptr_events. exact Pg.
            - intros Dg Pg. destruct Hg as [Hg|[<- |[]]]; [apply M', (g_link s G g v w); auto|]. apply L'. apply link_events. exact Pg.
            - intros Dg Eg Pg. destruct Hg as [Hg|[<- |[]]]; [apply M', (g_may s G g v w); auto|]. cbn [app] in T'.
              assert (PE : forall x, In x (ptrs (fnEvents f)) <-> pointerOf f x) by (intro x; rewrite in_ptrs; apply ptr_events).
              destruct T' as [T1 [T2 T3]].
              + destruct Eg as [Rf [Sy Tr]]. split; [intros x Hx; apply Rf, PE; exact Hx|]. split.
                * intros x y Hx Hy Mxy. apply Sy. split; [apply PE; exact Hx|]. split; [apply PE; exact Hy|exact Mxy].
                * intros x y z Hx Hy Hz M1 M2. apply (Tr x y z); (split; [apply PE; assumption|]; split; [apply PE; assumption|assumption]).
              + intros p [].
              + intros r q [].
              + destruct Pg as [Pv [Pw Mv]]. destruct Eg as [Rf [Sy Tr]].
                destruct (T1 v (proj2 (PE v) Pv)) as [r [R1 [R2 R3]]], (T1 w (proj2 (PE w) Pw)) as [q [Q1 [Q2 Q3]]].
                assert (Pr : pointerOf f r) by (apply PE, T3; exact R1). assert (Pq : pointerOf f q) by (apply PE, T3; exact Q1).
                assert (Mrv : may f r v = true) by (apply Sy; split; auto).
                assert (Mrw : may f r w = true) by (apply (Tr r v w); split; auto).
                assert (Mrq : may f r q = true) by (apply (Tr r w q); split; auto).
                apply (aliased_trans s' v r w I' R3). apply (aliased_trans s' r q w I'); [apply T2; auto|apply (aliased_sym s' _ _ I'); exact Q3]. }
          split; [rewrite X2; apply in_app_iff; right; left; reflexivity|].
          split; [split; [exact X1|rewrite X2; apply incl_appl, incl_refl]|]. split; [exact M'|].
          intros LL _ HF D HU HD. apply U'; auto.
          -- intros v w H. apply (HF f); [rewrite X2; apply in_app_iff; right; left; reflexivity|exact Df|]. left. apply link_events. exact H.
          -- cbn [app]. intros v w Hv Hw Mv. apply (HF f); [rewrite X2; apply in_app_iff; right; left; reflexivity|exact Df|]. right. rewrite in_ptrs in Hv, Hw. split; [apply ptr_events; exact Hv|]. split; [apply ptr_events; exact Hw|exact Mv].
  Qed.

  Hypothesis WF : wfModule isPtr isNull isInst decl fnInstrs users.

  Lemma operand_known s f i o : Good s -> In f (analyzed s) -> decl f = false -> In i (fnInstrs f) -> In o (iOps i) -> interesting o = true -> known s o.
  Proof.
    intros G Hf Df Hi Ho Po. apply (g_known s G f o Hf Df). destruct (isInst o) eqn:Q.
    - destruct (wf_local _ _ _ _ _ _ WF f i o Hi Ho Q) as [j [Hj E]]. left. exists j. split; [exact Hj|]. split; [auto|]. unfold AliasSetModel.interesting in Po. apply andb_true_iff in Po. tauto.
    - right. left. exists i. auto.
  Qed.

  Lemma user_step g s (us : list user) : Good s -> known s g -> incl us (users g) ->
    exists s', fold_left (visitUser g) us (Some s) = Some s' /\ Good s' /\ Step (userLink g) s s'
      /\ (forall u f v w, In u us -> uFn u = Some f ->
            ((isFunc g = false /\ interesting (uV u) = true /\ v = uV u /\ w = g)
             \/ (~ (isFunc g = false /\ interesting (uV u) = true) /\ uStore u = Some (v, w) /\ interesting v = true)) -> aliased s' v w).
  Proof.
    revert s. induction us as [|u us IH]; intros s G Kg Inc; cbn [fold_left].
    - exists s. split; [reflexivity|]. split; [exact G|]. split; [apply step_refl|]. intros u f v w [].
    - assert (Hu : In u (users g)) by (apply Inc; left; reflexivity). assert (Inc' : incl us (users g)) by (intros x Hx; apply Inc; right; exact Hx).
      assert (X : exists s1, visitUser g (Some s) u = Some s1 /\ Good s1 /\ Step (userLink g) s s1 /\
                (forall f v w, uFn u = Some f -> ((isFunc g = false /\ interesting (uV u) = true /\ v = uV u /\ w = g)
                    \/ (~ (isFunc g = false /\ interesting (uV u) = true) /\ uStore u = Some (v, w) /\ interesting v = true)) -> aliased s1 v w)).
      { unfold AliasSetModel.visitUser. destruct (uFn u) as [f|] eqn:Ef; [|exists s; split; [reflexivity|]; split; [exact G|]; split; [apply step_refl|]; intros; discriminate].
        destruct (function_step s f G) as [s1 [R1 [G1 [F1 S1]]]]. rewrite R1.
        destruct (wf_user _ _ _ _ _ _ WF g u f Hu Ef) as [Df [i [Hi [Ei Es]]]].
        destruct (negb (isFunc g) && interesting (uV u)) eqn:Q.
        - apply andb_true_iff in Q. destruct Q as [Q1 Q2]. apply negb_true_iff in Q1.
          assert (Ku : known s1 (uV u)).
          { apply (g_known s1 G1 f _ F1 Df). left. exists i. split; [exact Hi|]. split; [auto|]. unfold AliasSetModel.interesting in Q2. apply andb_true_iff in Q2. tauto. }
          destruct (merge_step s1 (uV u) g G1 Ku (extA_known _ _ g (proj1 S1) Kg)) as [s2 [R2 [G2 [A2 [S2 _]]]]]. exists s2. split; [exact R2|]. split; [exact G2|]. split.
          + apply (step_trans _ s s1 s2); [apply (step_weaken none); [intros ? ? []|exact S1]|]. apply (step_weaken (fun v w => v = uV u /\ w = g)); [|exact S2].
            intros v w [-> ->]. exists u, f. repeat (split; [assumption|]). left. auto.
          + intros f' v w Ef' [[_ [_ [-> ->]]]|[N _]]; [exact A2|]. elim N. auto.
        - assert (Q' : ~ (isFunc g = false /\ interesting (uV u) = true)) by (intros [Q1 Q2]; rewrite Q1, Q2 in Q; discriminate).
          destruct (uStore u) as [[svo spo]|] eqn:Eu.
          + destruct (interesting svo) eqn:Iv.
            * destruct (wf_store _ _ _ _ _ _ WF f i svo spo Hi Es) as [O1 [O2 P2]].
              assert (K1 : known s1 svo) by exact (operand_known s1 f i svo G1 F1 Df Hi O1 Iv). assert (K2 : known s1 spo) by exact (operand_known s1 f i spo G1 F1 Df Hi O2 P2).
              destruct (merge_step s1 svo spo G1 K1 K2) as [s2 [R2 [G2 [A2 [S2 _]]]]]. exists s2. split; [exact R2|]. split; [exact G2|]. split.
              -- apply (step_trans _ s s1 s2); [apply (step_weaken none); [intros ? ? []|exact S1]|]. apply (step_weaken (fun v w => v = svo /\ w = spo)); [|exact S2].
                 intros v w [-> ->]. exists u, f. repeat (split; [assumption|]). right. auto.
              -- intros f' v w Ef' [[N1 [N2 _]]|[_ [E _]]]; [elim Q'; auto|]. injection E as <- <-. exact A2.
            * exists s1. split; [reflexivity|]. split; [exact G1|]. split; [apply (step_weaken none); [intros ? ? []|exact S1]|].
              intros f' v w Ef' [[N1 [N2 _]]|[_ [E Pv]]]; [elim Q'; auto|]. injection E as <- <-. congruence.
          + exists s1. split; [reflexivity|]. split; [exact G1|]. split; [apply (step_weaken none); [intros ? ? []|exact S1]|].
            intros f' v w Ef' [[N1 [N2 _]]|[_ [E _]]]; [elim Q'; auto|discriminate]. }
      destruct X as [s1 [R1 [G1 [S1 P1]]]]. rewrite R1. destruct (IH s1 G1 (extA_known _ _ g (proj1 S1) Kg) Inc') as [s' [R' [G' [S' P']]]]. exists s'. split; [exact R'|]. split; [exact G'|].
      split; [exact (step_trans _ _ _ _ S1 S')|]. intros x f v w [<- |Hx] Ef Hc; [|exact (P' x f v w Hx Ef Hc)]. apply (proj1 (proj2 S')). exact (P1 f v w Ef Hc).
  Qed.

  Definition valueLinks (v a b : nat) : Prop := interesting v = true /\ isGlob v = true /\ userLink v a b.

  Lemma value_step s v : Good s -> exists s', computeValue v s = Some s' /\ Good s' /\ (interesting v = true -> known s' v) /\ Step (valueLinks v) s s'
    /\ (forall a b, valueLinks v a b -> aliased s' a b).
  Proof.
    intro G. unfold AliasSetModel.computeValue. destruct (interesting v) eqn:Iv.
    - destruct (single_step s v G) as [s1 [R1 [G1 [K1 [S1 _]]]]]. rewrite R1. destruct (isGlob v) eqn:Gv.
      + destruct (user_step v s1 (users v) G1 K1 (incl_refl _)) as [s2 [R2 [G2 [S2 P2]]]]. exists s2. split; [exact R2|]. split; [exact G2|]. split; [intros _; exact (extA_known _ _ v (proj1 S2) K1)|]. split.
        * apply (step_trans _ s s1 s2); [apply (step_weaken none); [intros ? ? []|exact S1]|]. apply (step_weaken (userLink v)); [|exact S2]. intros a b H. split; auto.
        * intros a b [_ [_ [u [f [Hu [Ef Hc]]]]]]. exact (P2 u f a b Hu Ef Hc).
      + assert (NL : forall a b, valueLinks v a b -> False) by (intros a b [_ [Q _]]; congruence).
        destruct (fnOf v) as [f|].
        * destruct (function_step s1 f G1) as [s2 [R2 [G2 [F2 S2]]]]. exists s2. split; [exact R2|]. split; [exact G2|]. split; [intros _; exact (extA_known _ _ v (proj1 S2) K1)|].
          split; [apply (step_weaken none); [intros ? ? []|]; exact (step_trans _ _ _ _ S1 S2)|]. intros a b H. destruct (NL a b H).
        * exists s1. split; [reflexivity|]. split; [exact G1|]. split; [auto|]. split; [apply (step_weaken none); [intros ? ? []|exact S1]|]. intros a b H. destruct (NL a b H).
    - exists s. split; [reflexivity|]. split; [exact G|]. split; [discriminate|]. split; [apply step_refl|]. intros a b [Q _]. congruence.
  Qed.

  (** ** histories *)
  Notation queried := (queried isPtr isNull).
  Notation introduced := (introduced isPtr isNull).
  Notation must := (must isPtr isNull isFunc isGlob decl castOp fnInstrs users).
  Notation mayL := (mayL isPtr isNull isInst isFunc decl globalsOf fnInstrs fnArgs may).
  Notation doOp := (doOp asserts fresh iter isPtr isNull isInst isFunc isGlob decl castOp globalsOf fnInstrs fnArgs ty may users fnOf).
  Notation run := (run asserts fresh iter isPtr isNull isInst isFunc isGlob decl castOp globalsOf fnInstrs fnArgs ty may users fnOf).

  Definition opLinks (o : op) (a b : nat) : Prop :=
    match o with
    | OCompute v => valueLinks v a b
    | OIntroduce v w => interesting v = true /\ interesting w = true /\ (valueLinks v a b \/ valueLinks w a b \/ (a = v /\ b = w))
    | OFunction _ => False
    end.
  Definition opKnows (o : op) (x : nat) : Prop :=
    interesting x = true /\ match o with OCompute v => x = v | OIntroduce v w => interesting v = true /\ interesting w = true /\ (x = v \/ x = w) | OFunction _ => False end.

  Lemma op_step s o : Good s -> exists s', doOp o s = Some s' /\ Good s' /\ Step (opLinks o) s s' /\ (forall a b, opLinks o a b -> aliased s' a b)
    /\ (forall x, opKnows o x -> known s' x) /\ (forall f, o = OFunction f -> In f (analyzed s')).
  Proof.
    intro G. destruct o as [v|v w|f]; cbn [AliasSetModel.doOp].
    - destruct (value_step s v G) as [s' [R [G' [K [S' P]]]]]. exists s'. split; [exact R|]. split; [exact G'|]. split; [exact S'|]. split; [exact P|]. split; [intros x [Ix ->]; auto|discriminate].
    - unfold AliasSetModel.introduceAlias. destruct (interesting v && interesting w) eqn:Q.
      + apply andb_true_iff in Q. destruct Q as [Iv Iw]. destruct (value_step s v G) as [s1 [R1 [G1 [K1 [S1 P1]]]]]. rewrite R1. destruct (value_step s1 w G1) as [s2 [R2 [G2 [K2 [S2 P2]]]]]. rewrite R2.
        assert (Kv : known s2 v) by exact (extA_known _ _ v (proj1 S2) (K1 Iv)).
        destruct (merge_step s2 v w G2 Kv (K2 Iw)) as [s3 [R3 [G3 [A3 [S3 _]]]]]. exists s3. split; [exact R3|]. split; [exact G3|]. split.
        * apply (step_trans _ s s1 s3); [apply (step_weaken (valueLinks v)); [|exact S1]; intros a b H; cbn; auto|].
          apply (step_trans _ s1 s2 s3); [apply (step_weaken (valueLinks w)); [|exact S2]; intros a b H; cbn; auto|].
          apply (step_weaken (fun a b => a = v /\ b = w)); [|exact S3]. intros a b H. cbn. auto.
        * split.
          -- intros a b [_ [_ [H|[H|[-> ->]]]]]; [|apply (proj1 (proj2 S3)); exact (P2 a b H)|exact A3]. apply (proj1 (proj2 S3)), (proj1 (proj2 S2)). exact (P1 a b H).
          -- split; [|discriminate]. intros x [Ix [_ [_ [-> | ->]]]]; [exact (extA_known _ _ v (proj1 S3) Kv)|exact (extA_known _ _ w (proj1 S3) (K2 Iw))].
      + apply andb_false_iff in Q. exists s. split; [reflexivity|]. split; [exact G|]. split; [apply step_refl|].
        split; [intros a b [H1 [H2 _]]; destruct Q; congruence|]. split; [intros x [_ [H1 [H2 _]]]; destruct Q; congruence|discriminate].
    - destruct (function_step s f G) as [s' [R [G' [F' S']]]]. exists s'. split; [exact R|]. split; [exact G'|]. split; [apply (step_weaken none); [intros ? ? []|exact S']|]. split; [intros a b []|]. split; [intros x [_ []]|]. intros f' E. injection E as <-. exact F'.
  Qed.

  Lemma run_steps ops : forall s, Good s -> exists s', run ops s = Some s' /\ Good s' /\ Step (fun a b => exists o, In o ops /\ opLinks o a b) s s'
    /\ (forall o a b, In o ops -> opLinks o a b -> aliased s' a b) /\ (forall o x, In o ops -> opKnows o x -> known s' x) /\ (forall f, In (OFunction f) ops -> In f (analyzed s')).
  Proof.
    induction ops as [|o ops IH]; intros s G.
    - exists s. split; [reflexivity|]. split; [exact G|]. split; [apply step_refl|]. split; [intros o a b []|]. split; [intros o x []|intros f []].
    - destruct (op_step s o G) as [s1 [R1 [G1 [S1 [P1 [K1 F1]]]]]]. destruct (IH s1 G1) as [s2 [R2 [G2 [S2 [P2 [K2 F2]]]]]]. exists s2. split; [unfold AliasSetModel.run; cbn [fold_left]; rewrite R1; exact R2|]. split; [exact G2|]. split.
      + apply (step_trans _ s s1 s2).
        * apply (step_weaken (opLinks o)); [|exact S1]. intros a b H. exists o. split; [left; reflexivity|exact H].
        * apply (step_weaken _ _ _ _ (fun a b H => match H with ex_intro _ x (conj Hx Hl) => ex_intro _ x (conj (or_intror Hx) Hl) end) S2).
      + split; [|split].
        * intros o' a b [<- |Ho] H; [apply (proj1 (proj2 S2)); exact (P1 a b H)|exact (P2 o' a b Ho H)].
        * intros o' x [<- |Ho] H; [exact (extA_known _ _ x (proj1 S2) (K1 x H))|exact (K2 o' x Ho H)].
        * intros f [E|Hf]; [apply (proj2 (proj1 S2)); exact (F1 f E)|exact (F2 f Hf)].
  Qed.

  Lemma opLinks_must ops a b : (exists o, In o ops /\ opLinks o a b) -> introduced ops a b \/ exists g, queried ops g /\ isGlob g = true /\ userLink g a b.
  Proof.
    intros [[v|v w|f] [Ho H]]; cbn in H.
    - destruct H as [Iv [Gv U]]. right. exists v. split; [split; [exact Iv|left; exact Ho]|auto].
    - destruct H as [Iv [Iw [[_ [Gv U]]|[[_ [Gw U]]|[-> ->]]]]].
      + right. exists v. split; [split; [exact Iv|right; exists w; auto]|auto].
      + right. exists w. split; [split; [exact Iw|right; exists v; auto]|auto].
      + left. split; auto.
    - destruct H.
  Qed.
  Lemma must_opLinks ops a b : introduced ops a b \/ (exists g, queried ops g /\ isGlob g = true /\ userLink g a b) -> exists o, In o ops /\ opLinks o a b.
  Proof.
    intros [[Ho [Ia Ib]]|[g [[Ig [Ho|[w [Iw [Ho|Ho]]]]] [Gg U]]]].
    - exists (OIntroduce a b). split; [exact Ho|]. cbn. auto 10.
    - exists (OCompute g). split; [exact Ho|]. cbn. split; auto.
    - exists (OIntroduce g w). split; [exact Ho|]. cbn. repeat (split; [assumption|]). left. split; auto.
    - exists (OIntroduce w g). split; [exact Ho|]. cbn. repeat (split; [assumption|]). right. left. split; auto.
  Qed.

  Lemma good_empty : Good emptyA.
  Proof. constructor; [apply inv_empty| | |]; cbn; intros; tauto. Qed.

  Lemma empty_aliased u t : ~ aliased emptyA u t.
  Proof. intros [b [l [E _]]]. discriminate. Qed.

  (** the whole history *)
  Lemma history ops : exists s, run ops emptyA = Some s /\ Good s
    /\ (forall v w, must ops (analyzed s) v w -> aliased s v w)
    /\ (forall v w, aliased s v w -> conn (known s) (fun a b => must ops (analyzed s) a b \/ mayL (analyzed s) a b) v w)
    /\ (forall v, queried ops v -> known s v) /\ (forall f, In (OFunction f) ops -> In f (analyzed s)).
  Proof.
    destruct (run_steps ops emptyA good_empty) as [s [R [G [S [P [K F]]]]]]. exists s. split; [exact R|]. split; [exact G|]. split; [|split; [|split; [|exact F]]].
    - intros v w [H|[[f [Hf [Df Lf]]]|H]].
      + destruct (must_opLinks ops v w (or_introl H)) as [o [Ho Hl]]. exact (P o v w Ho Hl).
      + exact (g_link s G f v w Hf Df Lf).
      + destruct (must_opLinks ops v w (or_intror H)) as [o [Ho Hl]]. exact (P o v w Ho Hl).
    - apply (proj2 (proj2 S)).
      + intros v w H. left. destruct (opLinks_must ops v w H) as [Q|Q]; [left; exact Q|right; right; exact Q].
      + intros f v w Hf Df [H|H]; [left; right; left; exists f; auto|right; exists f; auto].
      + intros u t H. destruct (empty_aliased u t H).
      + auto.
    - intros v [Iv [H|[w [Iw [H|H]]]]].
      + apply (K (OCompute v)); [exact H|]. split; auto.
      + apply (K (OIntroduce v w)); [exact H|]. split; auto.
      + apply (K (OIntroduce w v)); [exact H|]. split; auto.
  Qed.
End M.
