(** A generic upper-bound invariant for phase I: any predicate on (d1, n, d2,
    f) that is closed under the solver's inference rules holds of every pending
    item and every stored jump function, for every schedule. *)
From Coq Require Import List Bool Permutation Lia.
From Verif Require Import Assoc TableModel TableProofs JumpFunctionsModel JumpFunctionsProofs
  IDESolverModel IDESpec IDEPhase1.
Import ListNotations.

Section InvGen.
  Context {N F D L EF : Type} `{EqDec N} `{EqDec F} `{EqDec D}.
  Variable G : icfg N F.
  Variable P : problem N F D L EF.
  Variable follow : bool.
  Variable S0 : @seeds N D L.
  Hypothesis WF : icfg_wf G.

  Notation state := (@state N D EF).

  Definition nt (f : EF) : Prop := efEqb P f (allTop P) = false.

  Variable RJ : D -> N -> D -> EF -> Prop.

  Record rules : Prop := {
    r_normal : forall d1 n d2 f n' d3, nt f -> RJ d1 n d2 f -> isCallSite G n = false ->
      In n' (getSuccsOf G n) -> In d3 (normalFF P n n' d2) ->
      RJ d1 n' d3 (extend P f (normalEF P n d2 n' d3));
    r_ctr : forall d1 n d2 f n' d3, nt f -> RJ d1 n d2 f -> isCallSite G n = true ->
      In n' (getReturnSitesOfCallAt G n) -> In d3 (ctrFF P n n' d2) ->
      RJ d1 n' d3 (extend P f (ctrEF P n d2 n' d3));
    r_sum : forall d1 n d2 f callee sf n' d3, nt f -> RJ d1 n d2 f -> isCallSite G n = true ->
      In callee (getCalleesOfCallAt G n) -> sumFF P n callee = Some sf ->
      In n' (getReturnSitesOfCallAt G n) -> In d3 (sf d2) ->
      RJ d1 n' d3 (extend P f (sumEF P n d2 n' d3));
    r_call : forall d1 n d2 f callee sp d3, nt f -> RJ d1 n d2 f -> isCallSite G n = true ->
      In callee (getCalleesOfCallAt G n) -> sumFF P n callee = None ->
      In sp (getStartPointsOf G callee) -> In d3 (callFF P n callee d2) ->
      RJ d3 sp d3 (edgeIdentity P);
    r_return : forall d1 c d2 f callee sp d3 fs e d4 r d5,
      nt f -> nt fs -> RJ d1 c d2 f -> RJ d3 e d4 fs ->
      isCallSite G c = true -> In callee (getCalleesOfCallAt G c) -> sumFF P c callee = None ->
      In sp (getStartPointsOf G callee) -> In d3 (callFF P c callee d2) ->
      getFunctionOf G e = callee -> isCallSite G e = false -> isExitInst G e = true ->
      In r (getReturnSitesOfCallAt G c) -> In d5 (retFF P c callee e r d4) ->
      RJ d1 r d5 (retFn P c d2 callee d3 fs e d4 r d5 f);
    r_unbalanced : follow = true -> forall d1 n d2 f c r d5, nt f -> RJ d1 n d2 f ->
      isCallSite G n = false -> isExitInst G n = true ->
      In c (getCallersOf G (getFunctionOf G n)) -> In r (getReturnSitesOfCallAt G c) ->
      In d5 (retFF P c (getFunctionOf G n) n r d2) ->
      RJ (zeroValue P) r d5 (extend P f (retEF P c (getFunctionOf G n) n d2 r d5));
    r_combine : forall d1 n d2 f g, RJ d1 n d2 f -> RJ d1 n d2 g -> RJ d1 n d2 (combine P f g);
    r_first : forall d1 n d2 f, RJ d1 n d2 f -> RJ d1 n d2 (combine P (allTop P) f);
    r_seed : forall n facts d v, In (n, facts) S0 -> In (d, v) facts -> RJ d n d (edgeIdentity P)
  }.
  Hypothesis RU : rules.

  Record PInv (st : state) : Prop := {
    p_ok : jf_ok (st_jf st);
    p_nt : forall d1 n d2 f, jf_get (st_jf st) d1 n d2 = Some f -> nt f;
    p_jf : forall d1 n d2 f, jf_get (st_jf st) d1 n d2 = Some f -> RJ d1 n d2 f;
    p_wl : forall d1 n d2 f, In (d1, n, d2, f) (st_wl st) -> RJ d1 n d2 f;
    p_eswf : t_wf (st_es st) /\ forall sp d, t_wf (t_get [] (st_es st) sp d);
    p_es : forall sp d1 e d2 f, In (e, d2, f) (endSummary (st_es st) sp d1) ->
             RJ d1 e d2 f /\ nt f /\ isCallSite G e = false /\ isExitInst G e = true /\
             In sp (getStartPointsOf G (getFunctionOf G e));
    p_incwf : inc_wf (st_inc st);
    p_inc : forall sp d3 c d2, registered (st_inc st) sp d3 c d2 ->
             isCallSite G c = true /\ In (sp, d3) (callIncoming G P c d2);
    p_unb : follow = false -> st_unb st = []
  }.

  Lemma normal_RJ d1 n d2 f it : nt f -> RJ d1 n d2 f -> isCallSite G n = false ->
    In it (normalPushes G P f d1 n d2) -> let '(a, b, c, g) := it in RJ a b c g.
  Proof.
    intros Hnt HR Hc Hin. apply normalPushes_In in Hin. destruct Hin as (n' & d3 & Hn & Hd & ->).
    apply (r_normal RU); auto.
  Qed.

  Lemma ctr_RJ d1 n d2 f it : nt f -> RJ d1 n d2 f -> isCallSite G n = true ->
    In it (ctrPushes G P f d1 n d2) -> let '(a, b, c, g) := it in RJ a b c g.
  Proof.
    intros Hnt HR Hc Hin. apply ctrPushes_In in Hin. destruct Hin as (n' & d3 & Hn & Hd & ->).
    apply (r_ctr RU); auto.
  Qed.

  Lemma call_RJ st d1 n d2 f it : PInv st -> nt f -> RJ d1 n d2 f -> isCallSite G n = true ->
    In it (callPushes G P (st_es st) f d1 n d2) -> let '(a, b, c, g) := it in RJ a b c g.
  Proof.
    intros HI Hnt HR Hc Hin. apply callPushes_In in Hin.
    destruct Hin as [[callee [Hcal Hin]]|Hin]; [|eapply ctr_RJ; eauto].
    destruct (sumFF P n callee) as [sf|] eqn:Es.
    - apply summaryPushes_In in Hin. destruct Hin as (n' & d3 & Hn & Hd & ->).
      eapply (r_sum RU); eauto.
    - apply calleePushes_In in Hin. destruct Hin as (sp & d3 & Hsp & Hd3 & [->|Hin]).
      + eapply (r_call RU); eauto.
      + apply endSummaryPushes_In in Hin.
        destruct Hin as (e & d4 & fs & r & d5 & He & Hr & Hd5 & ->).
        destruct (p_es _ HI _ _ _ _ _ He) as (HRe & Hnte & He1 & He2 & Hspe).
        eapply (r_return RU); eauto.
        rewrite <- (wf_start_fun _ WF _ _ Hspe). apply (wf_start_fun _ WF _ _ Hsp).
  Qed.

  Lemma exitInc_registered (I : table N D (list (N * list D))) d1 (sps : list N) c ds d4 : inc_wf I ->
    In (c, ds) (exitInc I d1 sps) -> In d4 ds ->
    exists sp, In sp sps /\ registered I sp d1 c d4.
  Proof.
    intros Hw Hin Hd.
    assert (Hnd : NoDup (akeys (exitInc I d1 sps))) by (apply exitInc_NoDup; constructor).
    apply (In_afind _ _ _ Hnd) in Hin. unfold exitInc in Hin.
    apply exitInc_spec_gen in Hin; auto.
    destruct Hin as [[sp [Hsp E]]|E]; [|discriminate E]. exists sp. split; auto. exists ds; auto.
  Qed.

  Lemma return_RJ st d1 n d2 f it : PInv st -> nt f -> RJ d1 n d2 f ->
    isCallSite G n = false -> isExitInst G n = true ->
    In it (returnPushes G P (st_jf st)
             (exitInc (st_inc st) d1 (getStartPointsOf G (getFunctionOf G n))) f d1 n d2) ->
    let '(a, b, c, g) := it in RJ a b c g.
  Proof.
    intros HI Hnt HR Hc Hx Hin. apply returnPushes_In in Hin.
    destruct Hin as (c & d4s & r & d4 & d5 & d3 & f3 & Hcin & Hr & Hd4 & Hd5 & Hl & Hnt3 & ->).
    destruct (exitInc_registered _ _ _ _ _ _ (p_incwf _ HI) Hcin Hd4) as (sp & Hsp & Hreg).
    destruct (p_inc _ HI _ _ _ _ Hreg) as [Hcc Hci].
    apply callIncoming_In in Hci. destruct Hci as (callee & Hcal & Hsum & Hsp2 & Hdc).
    assert (Ef : callee = getFunctionOf G n).
    { rewrite <- (wf_start_fun _ WF _ _ Hsp2). apply (wf_start_fun _ WF _ _ Hsp). }
    subst callee.
    apply (proj1 (In_revl (isAllTop P) _ _ _ _ _ (p_ok _ HI))) in Hl.
    eapply (r_return RU); eauto. eapply p_jf; eauto.
  Qed.

  Lemma unbalanced_RJ d1 n d2 f it : follow = true -> nt f -> RJ d1 n d2 f ->
    isCallSite G n = false -> isExitInst G n = true ->
    In it (unbalancedPushes G P f n d2) -> let '(a, b, c, g) := it in RJ a b c g.
  Proof.
    intros Ef Hnt HR Hc Hx Hin. unfold unbalancedPushes in Hin.
    apply in_flat_map in Hin. destruct Hin as [c [Hcc Hin]].
    apply in_flat_map in Hin. destruct Hin as [r [Hr Hin]].
    apply in_map_iff in Hin. destruct Hin as [d5 [<- Hd]].
    eapply (r_unbalanced RU); eauto.
  Qed.

  Lemma PInv_task st d1 n d2 f : PInv st -> jf_get (st_jf st) d1 n d2 = Some f ->
    PInv (pathEdgeProcessingTask G P follow st d1 n d2).
  Proof.
    intros HI Hf.
    assert (Hnt := p_nt _ HI _ _ _ _ Hf). assert (HR := p_jf _ HI _ _ _ _ Hf).
    assert (Ej : jumpFunction P (st_jf st) d1 n d2 = f).
    { rewrite jumpFunction_jfn by apply (p_ok _ HI). unfold jfn. rewrite Hf. auto. }
    assert (Hwl : forall ps,
       (forall it, In it ps -> let '(a, b, c, g) := it in RJ a b c g) ->
       forall a b c g, In (a, b, c, g) (push ps (st_wl st)) -> RJ a b c g).
    { intros ps Hps a b c g Hin. apply push_In in Hin.
      destruct Hin as [Hin|Hin]; [exact (Hps _ Hin)|]. eapply (p_wl _ HI); eauto. }
    assert (Hnorm : forall st', PInv st' -> st_jf st' = st_jf st -> isCallSite G n = false ->
       PInv (processNormalFlow G P st' d1 n d2)).
    { intros st' [B1 B2 B3 B4 B5 B6 B7 B8 B9] EJ' Ec. split; simpl; auto.
      intros a b c g Hin. apply push_In in Hin. rewrite EJ', Ej in Hin.
      destruct Hin as [Hin|Hin]; auto. exact (normal_RJ _ _ _ _ _ Hnt HR Ec Hin). }
    unfold pathEdgeProcessingTask. destruct (isCallSite G n) eqn:Ec.
    - unfold processCall. rewrite Ej. pose proof HI as [B1 B2 B3 B4 B5 B6 B7 B8 B9]. split; simpl; auto.
      + apply Hwl. intros it Hin. eapply call_RJ; eauto.
      + apply inc_wf_fold; auto.
      + intros sp d3 c d2' Hreg. apply registered_fold in Hreg.
        destruct Hreg as [[Hin [-> ->]]|Hreg]; auto.
    - assert (HI2 : PInv (if isExitInst G n then processExit G P follow st d1 n d2 else st) /\
         st_jf (if isExitInst G n then processExit G P follow st d1 n d2 else st) = st_jf st).
      { destruct (isExitInst G n) eqn:Ex; auto. split; [|apply exit_fields].
        unfold processExit. rewrite Ej. pose proof HI as [B1 B2 B3 B4 B5 B6 B7 B8 B9].
        destruct (endSummary_fold (getStartPointsOf G (getFunctionOf G n)) d1 n d2 f (st_es st) B5) as [Xwf Xin].
        assert (Xes : forall sp d1' e d2' g, In (e, d2', g) (endSummary (fold_left (fun ES sp => addEndSummary ES sp d1 n d2 f)
                  (getStartPointsOf G (getFunctionOf G n)) (st_es st)) sp d1') ->
             RJ d1' e d2' g /\ nt g /\ isCallSite G e = false /\ isExitInst G e = true /\
             In sp (getStartPointsOf G (getFunctionOf G e))).
        { intros sp d1' e d2' g Hin. apply Xin in Hin. destruct (eq_dec _ _) as [E|]; [|auto].
          injection E; intros -> -> ->. destruct Hin as [[Hsp ->]|[_ Hin]]; auto. }
        assert (Hret : forall it, In it (returnPushes G P (st_jf st)
             (exitInc (st_inc st) d1 (getStartPointsOf G (getFunctionOf G n))) f d1 n d2) ->
             let '(a, b, c, g) := it in RJ a b c g).
        { intros it Hin. eapply return_RJ; eauto. }
        destruct follow eqn:Efl; [destruct (exitInc _ _ _) eqn:Einc|]; split; auto; try (simpl; congruence);
          try (unfold st_wl at 1; apply Hwl; exact Hret).
        intros a b c g Hin. simpl in Hin. apply push_In in Hin. destruct Hin as [Hin|Hin].
        - exact (unbalanced_RJ _ _ _ _ _ Efl Hnt HR Ec Ex Hin).
        - apply B4 in Hin. auto. }
      destruct HI2 as [HI2 EJ2]. destruct (getSuccsOf G n); auto.
  Qed.

  Lemma PInv_pstep st st' : PInv st -> pstep G P follow st st' -> PInv st'.
  Proof.
    intros HI Hs. destruct Hs as [st l1 l2 d1 n d2 f st' Ewl EJ EE EI EU EW].
    set (st0 := mkState (st_jf st) (st_es st) (st_inc st) (l1 ++ l2) (st_unb st)) in *.
    assert (HR : RJ d1 n d2 f).
    { apply (p_wl _ HI). rewrite Ewl. apply in_app_iff. right; left; auto. }
    assert (HI0 : PInv st0).
    { pose proof HI as [B1 B2 B3 B4 B5 B6 B7 B8 B9]. split; simpl; auto.
      intros a b c g Hin. apply B4. rewrite Ewl. rewrite in_app_iff in *. simpl. tauto. }
    assert (HI2 : PInv (propagate G P follow st0 d1 n d2 f)).
    { unfold propagate. rewrite (jfn_rev P _ d1 n d2 (p_ok _ HI0)).
      set (old := jfn P (st_jf st0) d1 n d2).
      destruct (efEqb P (combine P old f) old) eqn:Eeq; auto.
      assert (Hcase : (isAllTop P (combine P old f) = true /\ exists g, jf_get (st_jf st0) d1 n d2 = Some g) \/
                      (isAllTop P (combine P old f) = false /\ RJ d1 n d2 (combine P old f))).
      { destruct (isAllTop P (combine P old f)) eqn:Et; [left|right]; split; auto.
        - unfold old, jfn in *. destruct (jf_get (st_jf st0) d1 n d2) as [g|] eqn:Eg; [eauto|].
          unfold isAllTop in Et. congruence.
        - unfold old, jfn. destruct (jf_get (st_jf st0) d1 n d2) as [g|] eqn:Eg.
          + apply (r_combine RU); auto. apply (p_jf _ HI0); auto.
          + apply (r_first RU); auto. }
      destruct Hcase as [[Et [g Eg]]|[Et HRc]].
      - eapply PInv_task with (f := g).
        + unfold jf_add. rewrite Et. destruct HI0; split; auto.
        + simpl. unfold jf_add. rewrite Et. auto.
      - eapply PInv_task with (f := combine P old f).
        + pose proof HI0 as [B1 B2 B3 B4 B5 B6 B7 B8 B9]. split; auto.
          * simpl. apply jf_ok_add; auto.
          * simpl. intros a b c g. rewrite jf_get_add by auto. destruct (eq_dec _ _); [|apply B2].
            intros E; injection E; intros <-. exact Et.
          * simpl. intros a b c g. rewrite jf_get_add by auto. destruct (eq_dec _ _) as [E|]; [|apply B3].
            injection E; intros -> -> ->. intros E2; injection E2; intros <-. exact HRc.
        + simpl. rewrite jf_get_add by (auto; apply (p_ok _ HI0)).
          destruct (eq_dec _ _); congruence. }
    destruct HI2 as [B1 B2 B3 B4 B5 B6 B7 B8 B9].
    split; rewrite ?EJ, ?EE, ?EI, ?EU; auto.
    intros a b c g Hin. apply B4. eapply Permutation_in; eauto.
  Qed.

  Lemma PInv_psteps st st' : PInv st -> psteps G P follow st st' -> PInv st'.
  Proof. intros HI Hs. induction Hs; auto. eapply PInv_pstep; [apply IHHs; auto|eauto]. Qed.

  Lemma PInv_init st :
    st_jf st = jf_empty -> st_es st = [] -> st_inc st = [] -> st_unb st = [] ->
    Permutation (st_wl st) (seedItems P S0) -> PInv st.
  Proof.
    intros EJ EE EI EU HP.
    split; rewrite ?EJ, ?EE, ?EI; auto; try (intros; discriminate).
    - apply jf_ok_empty.
    - intros d1 n d2 f Hin. apply (Permutation_in _ HP) in Hin.
      unfold seedItems in Hin. apply in_flat_map in Hin. destruct Hin as [[n0 facts] [Hs Hin]].
      apply in_map_iff in Hin. destruct Hin as [[d v] [E Hf]]. injection E; intros; subst.
      eapply (r_seed RU); eauto.
    - split; [apply t_wf_empty|intros; apply t_wf_empty].
    - intros sp d1 e d2 f [].
    - intros sp d. constructor.
    - intros sp d3 c d2 [ds [E _]]. discriminate E.
  Qed.
End InvGen.
