(** Independence of the solver result from all iteration orders. *)
From Coq Require Import List Bool Permutation Lia.
From Verif Require Import Assoc TableModel TableProofs JumpFunctionsModel JumpFunctionsProofs
  IDESolverModel IDESpec IDEPhase1 IDEPhase2 IDEInvariant IDESound.
Import ListNotations.

Section Sched.
  Context {N F D L EF : Type} `{EqDec N} `{EqDec F} `{EqDec D}.
  Variable G : icfg N F.
  Variable P : problem N F D L EF.
  Hypothesis WF : icfg_wf G.
  Hypothesis LL : lattice_laws P.
  Hypothesis ES : ef_sound P.
  Hypothesis EX : ef_exact P.

  Notation lle := (lle P).
  Notation ap := (apply P).
  Notation val := (val P).
  Notation efle := (efle P).
  Notation jfn := (jfn P).
  Notation nt := (nt P).

  Definition seeds_equiv (S1 S2 : @seeds N D L) : Prop := forall x, In x S1 <-> In x S2.

  Lemma addZeroSeeds_equiv S1 S2 : seeds_equiv S1 S2 -> seeds_equiv (addZeroSeeds P S1) (addZeroSeeds P S2).
  Proof.
    intros E x. unfold addZeroSeeds. rewrite !in_map_iff.
    split; intros [y [Hy Hin]]; exists y; split; auto; apply E; auto.
  Qed.

  Lemma seedCells_equiv S1 S2 : seeds_equiv S1 S2 -> forall x, In x (seedCells S1) <-> In x (seedCells S2).
  Proof.
    intros E [[n d] l]. rewrite !seedCells_In.
    split; intros [facts [Hin Hf]]; exists facts; split; auto; apply E; auto.
  Qed.

  Lemma seedKey_equiv S1 S2 n : seeds_equiv S1 S2 ->
    (match afind n S1 with Some _ => true | None => false end) = true ->
    (match afind n S2 with Some _ => true | None => false end) = true.
  Proof.
    intros E. destruct (afind n S1) as [facts|] eqn:E1; [intros _|discriminate].
    destruct (afind n S2) eqn:E2; auto. apply afind_In, E in E1. apply afind_None in E2.
    exfalso. apply E2. unfold akeys. apply in_map_iff. exists (n, facts). auto.
  Qed.

  Section Least.
    Variables S1 S2 : @seeds N D L.
    Hypothesis SE : seeds_equiv S1 S2.
    Variable st : @state N D EF.
    Hypothesis HI : Inv G P S2 st.
    Hypothesis Hw : st_wl st = [].

    Definition Lst d1 n d2 f : Prop := efle f (jfn (st_jf st) d1 n d2).

    Lemma Lst_cell d1 n d2 f : nt f -> Lst d1 n d2 f ->
      exists g, jf_get (st_jf st) d1 n d2 = Some g /\ efle f g.
    Proof.
      intros Hnt Hl. unfold Lst, IDEPhase1.jfn in Hl.
      destruct (jf_get (st_jf st) d1 n d2) as [g|] eqn:E; [eauto|].
      exfalso. unfold IDEInvariant.nt in Hnt. rewrite (ex_top _ EX f) in Hnt; [discriminate|].
      intros x. apply (lle_to_top P LL). rewrite <- (es_top _ ES x). apply Hl.
    Qed.

    Lemma extend_mono f g e : nt f -> efle f g -> efle (extend P f e) (extend P g e).
    Proof.
      intros Hnt Hle x. eapply lle_trans; [exact LL|apply (ex_extend _ EX); auto|].
      eapply lle_trans; [exact LL| |apply (es_extend _ ES)]. apply (es_mono _ ES). apply Hle.
    Qed.

    Lemma retFn_mono c d2 callee d3 fs gs e d4 r d5 f g :
      nt f -> nt fs -> efle f g -> efle fs gs ->
      efle (retFn P c d2 callee d3 fs e d4 r d5 f) (retFn P c d2 callee d3 gs e d4 r d5 g).
    Proof.
      intros Hf Hfs Hle Hles x. unfold retFn.
      eapply lle_trans; [exact LL|apply (ex_extend _ EX); auto|].
      eapply lle_trans; [exact LL|apply (ex_extend _ EX); apply (ex_extend_nt _ EX); auto; apply (ex_call_nt _ EX)|].
      eapply lle_trans; [exact LL| |apply (es_extend _ ES)].
      eapply lle_trans; [exact LL| |apply (es_extend _ ES)].
      apply (es_mono _ ES).
      eapply lle_trans; [exact LL|apply (ex_extend _ EX); apply (ex_call_nt _ EX)|].
      eapply lle_trans; [exact LL| |apply (es_extend _ ES)].
      eapply lle_trans; [exact LL|apply Hles|].
      apply (es_mono _ ES). apply (es_mono _ ES). apply Hle.
    Qed.

    Lemma done d1 n d2 f g : efle f g -> cov P st (d1, n, d2, g) -> Lst d1 n d2 f.
    Proof. intros Hle Hc. eapply efle_trans; [exact LL|exact Hle|]. apply cov_done; auto. Qed.

    Lemma Lst_rules : rules G P false S1 Lst.
    Proof.
      split; try discriminate.
      - intros d1 n d2 f n' d3 Hnt Hl Hc Hn Hd. destruct (Lst_cell _ _ _ _ Hnt Hl) as [g [Eg Hle]].
        eapply done; [apply extend_mono; eauto|]. eapply (i_norm _ _ _ _ HI); eauto.
        apply normalPushes_In; eauto 6.
      - intros d1 n d2 f n' d3 Hnt Hl Hc Hn Hd. destruct (Lst_cell _ _ _ _ Hnt Hl) as [g [Eg Hle]].
        eapply done; [apply extend_mono; eauto|]. eapply (i_call _ _ _ _ HI); eauto.
        apply in_app_iff. right. apply ctrPushes_In; eauto 6.
      - intros d1 n d2 f callee sf n' d3 Hnt Hl Hc Hcal Hs Hn Hd.
        destruct (Lst_cell _ _ _ _ Hnt Hl) as [g [Eg Hle]].
        eapply done; [apply extend_mono; eauto|]. eapply (i_call _ _ _ _ HI); eauto.
        apply in_app_iff. left. apply in_flat_map. exists callee. split; auto. rewrite Hs.
        apply summaryPushes_In; eauto 6.
      - intros d1 n d2 f callee sp d3 Hnt Hl Hc Hcal Hs Hsp Hd.
        destruct (Lst_cell _ _ _ _ Hnt Hl) as [g [Eg Hle]].
        eapply done; [apply efle_refl; auto|]. eapply (i_call _ _ _ _ HI); eauto.
        apply in_app_iff. left. apply in_flat_map. exists callee. split; auto. rewrite Hs.
        apply in_flat_map. exists sp. split; auto. apply in_map_iff. eauto.
      - intros d1 c d2 f callee sp d3 fs e d4 r d5 Hnt Hnts Hl Hls Hc Hcal Hs Hsp Hd3 Ee He1 He2 Hr Hd5.
        destruct (Lst_cell _ _ _ _ Hnt Hl) as [g [Eg Hle]].
        destruct (Lst_cell _ _ _ _ Hnts Hls) as [gs [Egs Hles]].
        eapply done; [apply retFn_mono; eauto|]. eapply (i_ret _ _ _ _ HI); eauto.
      - intros d1 n d2 f g Hf Hg x. eapply lle_trans; [exact LL|apply (ex_combine _ EX)|].
        apply lle_join_lub; auto.
      - intros d1 n d2 f Hf x. eapply lle_trans; [exact LL|apply (ex_combine _ EX)|].
        rewrite (es_top _ ES), (ll_top _ LL). apply Hf.
      - intros n facts d v Hin Hf. eapply done; [apply efle_refl; auto|].
        apply (i_seed _ _ _ _ HI). unfold seedItems. apply in_flat_map.
        exists (n, facts). split; [apply SE; auto|]. apply in_map_iff. exists (d, v). auto.
    Qed.
  End Least.

  (** jump functions agree *)
  Definition jle (J1 J2 : jumpfns N D EF) : Prop := forall d1 n d2 f,
    jf_get J1 d1 n d2 = Some f -> exists g, jf_get J2 d1 n d2 = Some g /\ efle f g.

  Lemma jle_run S1 S2 (SE : seeds_equiv S1 S2) st1 st2 T1 T2 :
    solved G P false S1 st1 T1 -> solved G P false S2 st2 T2 ->
    jle (st_jf st1) (st_jf st2) /\ st_unb st1 = [].
  Proof.
    intros Hs1 Hs2. destruct (solved_Inv G P false WF LL (ef_sound_weaken P ES) _ _ _ Hs2) as [HI Hw].
    destruct Hs1 as (st0 & v & [EJ [EE [EI [EU HP]]]] & Hs & _).
    pose proof (Lst_rules _ _ (addZeroSeeds_equiv _ _ SE) st2 HI Hw) as RU.
    assert (PI : PInv G P false (Lst st2) st1).
    { eapply PInv_psteps; eauto. eapply PInv_init; eauto. }
    split; [|apply (p_unb _ _ _ _ _ PI); auto].
    intros d1 n d2 f Hf. apply Lst_cell; [eapply (p_nt _ _ _ _ _ PI); eauto|].
    apply (p_jf _ _ _ _ _ PI); auto.
  Qed.

  (** values agree *)
  Section Vals.
    Variables S1 S2 : @seeds N D L.
    Hypothesis SE : seeds_equiv S1 S2.
    Variables J1 J2 : jumpfns N D EF.
    Hypothesis OK1 : jf_ok J1.
    Hypothesis OK2 : jf_ok J2.
    Hypothesis JL : jle J1 J2.
    Variable v1 v2 : @vstate N D L.
    Hypothesis R1 : vsteps G P S1 [] J1 (submitInitialValues G P S1 [] J1 (mkV [] [])) v1.
    Hypothesis R2 : vsteps G P S2 [] J2 (submitInitialValues G P S2 [] J2 (mkV [] [])) v2.
    Hypothesis W2 : v_wl v2 = [].

    Lemma acts_le n d n' d' f : In (n', d', f) (acts G P S1 [] J1 n d) ->
      exists g, In (n', d', g) (acts G P S2 [] J2 n d) /\ efle f g.
    Proof.
      unfold acts. intros Hin. apply in_app_iff in Hin. destruct Hin as [Hin|Hin].
      - destruct (startLike G S1 [] n) eqn:Es; [|destruct Hin].
        assert (Es2 : startLike G S2 [] n = true).
        { unfold startLike in *. apply orb_true_iff in Es. apply orb_true_iff. destruct Es as [Es|Es]; [left|auto].
          apply orb_true_iff in Es. apply orb_true_iff. destruct Es as [Es|Es]; [auto|right].
          eapply seedKey_equiv; eauto. }
        unfold actsStart in *. apply in_flat_map in Hin. destruct Hin as [c [Hc Hin]].
        apply in_map_iff in Hin. destruct Hin as [[d0 f0] [E Hl]]. injection E; intros; subst.
        apply (proj1 (In_fwdl (isAllTop P) _ _ _ _ _ OK1)) in Hl.
        destruct (JL _ _ _ _ Hl) as [g [Eg Hle]]. exists g. split; auto.
        apply in_app_iff. left. rewrite Es2. apply in_flat_map. exists n'. split; auto.
        apply in_map_iff. exists (d', g). split; auto.
        apply (proj2 (In_fwdl (isAllTop P) _ _ _ _ _ OK2)); auto.
      - exists f. split; [|apply efle_refl; auto]. apply in_app_iff. right. exact Hin.
    Qed.

    Definition GoodV n d x : Prop :=
      lle x (val (v_tab v2) n d) /\ (x <> topElement P \/ exists l, In (n, d, l) (seedCells S2)).

    Lemma GoodV_run n d x : t_lookup (v_tab v1) n d = Some x -> GoodV n d x.
    Proof.
      destruct (phase2_closed G P S2 [] J2 LL v2 R2 W2) as [Hseed Hcl].
      destruct (phase2_good G P S1 [] J1 LL GoodV) with (v := v1) as [HV _]; auto.
      - intros n0 d0 x0 y0 [Hx Hx'] [Hy Hy']. split; [apply lle_join_lub; auto|].
        destruct Hx' as [Hx'|]; auto. left. intros E. apply Hx'. apply (lle_to_top P LL).
        rewrite <- E. apply lle_join_l; auto.
      - intros n0 d0 x0 n' d' f [Hx Hx'] Hin.
        destruct (acts_le _ _ _ _ _ Hin) as [g [Hg Hle]].
        destruct (lEqb P (ap f x0) (topElement P)) eqn:Et; [left; apply (ll_eqb _ LL); auto|right].
        split.
        + eapply lle_trans; [exact LL|apply (es_mono _ ES); exact Hx|].
          eapply lle_trans; [exact LL|apply Hle|]. apply Hcl; auto. simpl.
          destruct Hx' as [Hx'|Hx']; auto. left. intros E. apply Hx'. apply (lle_to_top P LL). rewrite <- E. auto.
        + left. intros E. apply (ll_eqb _ LL) in E. congruence.
      - simpl. intros n0 d0 l Hin. apply (seedCells_equiv _ _ SE) in Hin. split; [apply Hseed; auto|right; eauto].
    Qed.

    Lemma lookup_le n d x : t_lookup (v_tab v1) n d = Some x ->
      exists y, t_lookup (v_tab v2) n d = Some y /\ lle x y.
    Proof.
      intros Hx. destruct (GoodV_run _ _ _ Hx) as [Hle Hk]. unfold IDESolverModel.val in Hle.
      destruct (t_lookup (v_tab v2) n d) as [y|] eqn:E; [eauto|].
      exfalso. destruct Hk as [Hk|[l Hl]].
      - apply Hk. apply (lle_to_top P LL). auto.
      - eapply (phase2_seed_keys G P S2 [] J2 LL v2 n d l); eauto.
    Qed.

    Lemma val_le n d : lle (val (v_tab v1) n d) (val (v_tab v2) n d).
    Proof.
      unfold IDESolverModel.val at 1. destruct (t_lookup (v_tab v1) n d) as [x|] eqn:E.
      - apply (GoodV_run _ _ _ E).
      - apply lle_top; auto.
    Qed.

    Lemma result_le n d x : t_lookup (valueComputationTask G P J1 (v_tab v1)) n d = Some x ->
      exists y, t_lookup (valueComputationTask G P J2 (v_tab v2)) n d = Some y /\ lle x y.
    Proof.
      assert (FILL : forall n sp n', In n (allNonCallStartNodes G) ->
                In sp (getStartPointsOf G (getFunctionOf G n')) -> sp <> n).
      { intros n0 sp n' Hn Hsp ->. apply (wf_rest _ WF) in Hn. destruct Hn as [_ Hn].
        rewrite (proj2 (wf_start _ WF n0)) in Hn; [discriminate|].
        rewrite (wf_start_fun _ WF _ _ Hsp). auto. }
      set (T2 := valueComputationTask G P J2 (v_tab v2)).
      destruct (fill_spec G P J2 LL FILL (v_tab v2)) as (_ & Hge & Hfill). fold T2 in Hge, Hfill.
      intros Hx.
      assert (HG : t_lookup T2 n d <> None /\ lle x (val T2 n d)).
      { revert n d x Hx. apply (fill_good G P J1 LL FILL
          (fun n d x => t_lookup T2 n d <> None /\ lle x (val T2 n d))).
        - intros n d x y [Hk Hx] [_ Hy]. split; auto. apply lle_join_lub; auto.
        - intros n d x Hx. destruct (lookup_le _ _ _ Hx) as [y [Hy Hle]]. split.
          + apply fill_keys. left. congruence.
          + eapply lle_trans; [exact LL| |apply Hge]. unfold IDESolverModel.val. rewrite Hy. auto.
        - intros n d sp d' f Hin. apply fillActs_In in Hin; auto. destruct Hin as (Hn & Hsp & Hf).
          destruct (JL _ _ _ _ Hf) as [g [Eg Hle]].
          assert (Hin2 : In (n, d, sp, d', g) (fillActs G J2)) by (apply fillActs_In; auto).
          split.
          + apply fill_keys. right. eauto.
          + eapply lle_trans; [exact LL| |apply (Hfill _ _ _ _ _ Hin2)].
            eapply lle_trans; [exact LL|apply Hle|]. apply (es_mono _ ES). apply val_le. }
      destruct HG as [Hk Hle]. unfold IDESolverModel.val in Hle.
      destruct (t_lookup T2 n d) as [y|]; [eauto|congruence].
    Qed.
  End Vals.

  Lemma solver_deterministic S1 S2 st1 st2 T1 T2 :
    seeds_equiv S1 S2 -> solved G P false S1 st1 T1 -> solved G P false S2 st2 T2 ->
    (forall n d, t_lookup T1 n d = t_lookup T2 n d) /\
    (forall d1 n d2, match jf_get (st_jf st1) d1 n d2, jf_get (st_jf st2) d1 n d2 with
                     | Some f, Some g => forall x, ap f x = ap g x
                     | None, None => True
                     | _, _ => False
                     end).
  Proof.
    intros SE Hs1 Hs2.
    assert (SE' : seeds_equiv S2 S1) by (intros x; symmetry; apply SE).
    destruct (jle_run _ _ SE _ _ _ _ Hs1 Hs2) as [J12 U1].
    destruct (jle_run _ _ SE' _ _ _ _ Hs2 Hs1) as [J21 U2].
    destruct (solved_Inv G P false WF LL (ef_sound_weaken P ES) _ _ _ Hs1) as [HI1 _].
    destruct (solved_Inv G P false WF LL (ef_sound_weaken P ES) _ _ _ Hs2) as [HI2 _].
    apply i_jf in HI1. apply i_jf in HI2.
    destruct Hs1 as (s1 & v1 & _ & _ & _ & V1 & W1 & ->).
    destruct Hs2 as (s2 & v2 & _ & _ & _ & V2 & W2 & ->).
    rewrite U1 in V1. rewrite U2 in V2.
    apply addZeroSeeds_equiv in SE. apply addZeroSeeds_equiv in SE'.
    assert (R12 := result_le _ _ SE _ _ HI1 HI2 J12 _ _ V1 V2 W2).
    assert (R21 := result_le _ _ SE' _ _ HI2 HI1 J21 _ _ V2 V1 W1).
    split.
    - intros n d.
      destruct (t_lookup (valueComputationTask G P (st_jf st1) (v_tab v1)) n d) as [x|] eqn:E1.
      + destruct (R12 _ _ _ E1) as [y [E2 Hle]]. rewrite E2. f_equal.
        destruct (R21 _ _ _ E2) as [x' [E1' Hle']]. rewrite E1 in E1'. injection E1'; intros <-.
        apply (lle_antisym P LL); auto.
      + destruct (t_lookup (valueComputationTask G P (st_jf st2) (v_tab v2)) n d) as [y|] eqn:E2; auto.
        destruct (R21 _ _ _ E2) as [x [E1' _]]. congruence.
    - intros d1 n d2. destruct (jf_get (st_jf st1) d1 n d2) as [f|] eqn:E1.
      + destruct (J12 _ _ _ _ E1) as [g [E2 Hle]]. rewrite E2.
        destruct (J21 _ _ _ _ E2) as [f' [E1' Hle']]. rewrite E1 in E1'. injection E1'; intros <-.
        intros x. apply (lle_antisym P LL); auto.
      + destruct (jf_get (st_jf st2) d1 n d2) as [g|] eqn:E2; auto.
        destruct (J21 _ _ _ _ E2) as [x [E1' _]]. congruence.
  Qed.
End Sched.
