(** Soundness of the complete IDE solver (phases I and II) with respect to the
    push-down semantics of IDESpec.v, for every schedule. *)
From Coq Require Import List Bool Permutation Lia.
From Verif Require Import Assoc TableModel TableProofs JumpFunctionsModel JumpFunctionsProofs
  IDESolverModel IDESpec IDEPhase1 IDEPhase2.
Import ListNotations.

Lemma ef_sound_weaken {N F D L EF : Type} (P : problem N F D L EF) : ef_sound P -> ef_sound_nt P.
Proof. intros [M I T E X Cl Cr]. split; auto. Qed.

Section Sound.
  Context {N F D L EF : Type} `{EqDec N} `{EqDec F} `{EqDec D}.
  Variable G : icfg N F.
  Variable P : problem N F D L EF.
  Variable follow : bool.
  Hypothesis WF : icfg_wf G.
  Hypothesis LL : lattice_laws P.
  Hypothesis ES : ef_sound_nt P.

  Notation lle := (lle P).
  Notation ap := (apply P).
  Notation val := (val P).

  Lemma solved_Inv S st T : solved G P follow S st T -> Inv G P (addZeroSeeds P S) st /\ st_wl st = [].
  Proof.
    intros (st0 & v & [EJ [EE [EI [EU HP]]]] & Hs & Hw & _). split; auto.
    eapply Inv_psteps; eauto. apply Inv_init; auto.
  Qed.

  Lemma seed_active S st n facts d v :
    Inv G P (addZeroSeeds P S) st -> st_wl st = [] ->
    In (n, facts) (addZeroSeeds P S) -> In (d, v) facts -> active P (st_jf st) n d.
  Proof.
    intros HI Hw Hin Hf. eapply cov_done; eauto.
    apply (i_seed _ _ _ _ HI). unfold seedItems. apply in_flat_map.
    exists (n, facts). split; auto. apply in_map_iff. exists (d, v). auto.
  Qed.

  Lemma addZeroSeeds_starts S : seeds_at_starts G S -> seeds_at_starts G (addZeroSeeds P S).
  Proof.
    intros Hs n facts Hin. unfold addZeroSeeds in Hin. apply in_map_iff in Hin.
    destruct Hin as [[n0 f0] [E Hin]]. injection E; intros; subst. eapply Hs; eauto.
  Qed.

  Section Vals.
    Variable S0 : @seeds N D L.
    Variable U : list N.
    Variable st : @state N D EF.
    Variable V : table N D L.
    Hypothesis HI : Inv G P S0 st.
    Hypothesis Hw : st_wl st = [].
    Hypothesis Vseed : forall n d l, In (n, d, l) (seedCells S0) -> lle l (val V n d).
    Hypothesis Vclosed : forall n d, val V n d <> topElement P -> closedAt G P S0 U (st_jf st) V n d.
    Hypothesis Hstart : seeds_at_starts G S0.

    Definition seedBase n d v := In (n, d, v) (seedCells S0).

    Lemma nontop_up x y : nontop P x -> lle x y -> y <> topElement P.
    Proof. intros Hx Hle ->. apply Hx. eapply lle_to_top; eauto. Qed.

    (** the value at the entry of the current procedure *)
    Definition entryOK n d v := exists sp d1 v1,
      In sp (getStartPointsOf G (getFunctionOf G n)) /\ nontop P v1 /\ lle v1 (val V sp d1) /\
      lle v (ap (jfn P (st_jf st) d1 n d) v1).

    Lemma entry_call c d v : isCallSite G c = true -> nontop P v -> entryOK c d v -> lle v (val V c d).
    Proof.
      intros Hc Hv (sp & d1 & v1 & Hsp & Hv1 & Hle1 & Hle).
      destruct (jfn_some P LL ES _ _ _ _ _ _ Hv Hle) as [f [Ef Hle2]].
      assert (Hcl := Vclosed sp d1 (nontop_up _ _ Hv1 Hle1)).
      assert (Efun : getFunctionOf G sp = getFunctionOf G c) by (eapply (wf_start_fun _ WF); eauto).
      assert (Ha : In (c, d, f) (acts G P S0 U (st_jf st) sp d1)).
      { unfold acts. apply in_app_iff. left.
        assert (E : startLike G S0 U sp = true).
        { unfold startLike. apply orb_true_iff; left. apply orb_true_iff; left.
          apply (wf_start _ WF). rewrite Efun. auto. }
        rewrite E. unfold actsStart. apply in_flat_map. exists c. split.
        - rewrite Efun. apply (wf_calls _ WF). auto.
        - apply in_map_iff. exists (d, f). split; auto.
          apply (In_fwdl (isAllTop P) _ _ _ _ _ (i_jf _ _ _ _ HI)). auto. }
      eapply lle_trans; [exact LL| |apply (Hcl _ _ _ Ha)].
      eapply lle_trans; [exact LL|exact Hle2|]. apply (en_mono _ ES); auto.
    Qed.

    Lemma call_value c d v callee sp d' :
      isCallSite G c = true -> nontop P v -> lle v (val V c d) ->
      In callee (getCalleesOfCallAt G c) -> In sp (getStartPointsOf G callee) ->
      In d' (callFF P c callee d) -> lle (ap (callEF P c d callee d') v) (val V sp d').
    Proof.
      intros Hc Hv Hle Hcal Hsp Hd.
      assert (Hcl := Vclosed c d (nontop_up _ _ Hv Hle)).
      eapply lle_trans; [exact LL|apply (en_mono _ ES); [exact Hv|exact Hle]|].
      apply Hcl. unfold acts. apply in_app_iff. right. rewrite Hc. unfold actsCall.
      apply in_flat_map. exists callee. split; auto.
      apply in_flat_map. exists d'. split; auto. apply in_map_iff. eauto.
    Qed.

    Lemma cfg_entry S n d v : cfgOK G P (st_jf st) seedBase S n d v -> nontop P v -> entryOK n d v.
    Proof.
      intros Hc. induction Hc as [n d v sp d1 v1 HB Hsp Hv1 Hle
        |S c callee d2 v2 sp d1 v1 n d v Hc IH Hv2 Hcs Hcal Hsum Hsp Hd1 Ev1 Hv1 Ef Hle]; intros Hv.
      - exists sp, d1, v1. repeat split; auto.
      - exists sp, d1, v1. subst callee. repeat split; auto. subst v1.
        eapply call_value; eauto. apply entry_call; auto.
    Qed.

    Lemma reach_cfg S n d v : reach G P (nontop P) S0 (S, n, d, v) ->
      nontop P v /\ cfgOK G P (st_jf st) seedBase S n d v.
    Proof.
      intros Hr.
      pose proof (cfg_reach G P S0 WF LL ES st seedBase HI Hw S0) as HC.
      refine (HC _ (S, n, d, v) Hr).
      intros n0 facts d0 v0 Hin Hf Hv. split; [|split].
      - apply seedCells_In; eauto.
      - apply (wf_start _ WF). eapply Hstart; eauto.
      - eapply cov_done; eauto. apply (i_seed _ _ _ _ HI). unfold seedItems. apply in_flat_map.
        exists (n0, facts). split; auto. apply in_map_iff. exists (d0, v0). auto.
    Qed.

    (** value at a start point: it can only be entered by a seed or a call *)
    Lemma start_value cf : reach G P (nontop P) S0 cf ->
      let '(_, n, d, v) := cf in isStartPoint G n = true -> lle v (val V n d).
    Proof.
      intros Hr. destruct Hr as [n facts d v Hin Hf Hv|[[[S1 n1] d1] v1] S n d v Hr Hs Hv]; intros Hst.
      - apply Vseed. apply seedCells_In; eauto.
      - destruct (reach_cfg _ _ _ _ Hr) as [Hv1 Hc].
        inversion Hs; subst; clear Hs;
          try (exfalso;
               match goal with
               | Hx : In n (getSuccsOf G _) |- _ => rewrite (wf_succ_nostart _ WF _ _ Hx) in Hst
               | Hx : In n (getReturnSitesOfCallAt G _) |- _ => rewrite (wf_ret_nostart _ WF _ _ Hx) in Hst
               end; discriminate).
        eapply call_value; eauto. apply entry_call; auto. eapply cfg_entry; eauto.
    Qed.

    Lemma values_sound S n d v : reach G P (nontop P) S0 (S, n, d, v) ->
      lle v (val (valueComputationTask G P (st_jf st) V) n d).
    Proof.
      intros Hr. destruct (reach_cfg _ _ _ _ Hr) as [Hv Hc].
      assert (FILL : forall n sp n', In n (allNonCallStartNodes G) ->
                In sp (getStartPointsOf G (getFunctionOf G n')) -> sp <> n).
      { intros n0 sp n' Hn Hsp ->. apply (wf_rest _ WF) in Hn. destruct Hn as [_ Hn].
        rewrite (proj2 (wf_start _ WF n0)) in Hn; [discriminate|].
        rewrite (wf_start_fun _ WF _ _ Hsp). auto. }
      destruct (fill_spec G P (st_jf st) LL FILL V) as (Hkeep & Hge & Hfill).
      pose proof (cfg_entry _ _ _ _ Hc Hv) as He.
      destruct (isCallSite G n) eqn:Ecs.
      - eapply lle_trans; [exact LL| |apply Hge]. apply entry_call; auto.
      - destruct (isStartPoint G n) eqn:Est.
        + eapply lle_trans; [exact LL| |apply Hge].
          exact (start_value _ Hr Est).
        + destruct He as (sp & d1 & v1 & Hsp & Hv1 & Hle1 & Hle).
          destruct (jfn_some P LL ES _ _ _ _ _ _ Hv Hle) as [f [Ef Hle2]].
          eapply lle_trans; [exact LL|exact Hle2|].
          eapply lle_trans; [exact LL|apply (en_mono _ ES); [exact Hv1|exact Hle1]|].
          apply Hfill. apply fillActs_In; [apply (i_jf _ _ _ _ HI)|].
          repeat split; auto. apply (wf_rest _ WF). auto.
    Qed.
  End Vals.

  Lemma solver_sound S st T stk n d v :
    seeds_at_starts G S -> solved G P follow S st T ->
    reach G P (nontop P) (addZeroSeeds P S) (stk, n, d, v) -> lle v (val T n d).
  Proof.
    intros Hst Hs Hr. destruct (solved_Inv _ _ _ Hs) as [HI Hw].
    destruct Hs as (st0 & vf & _ & _ & _ & Hv & Hvw & ->).
    destruct (phase2_closed G P _ _ _ LL _ Hv Hvw) as [Hseed Hcl].
    eapply values_sound; eauto using addZeroSeeds_starts.
  Qed.
End Sound.
