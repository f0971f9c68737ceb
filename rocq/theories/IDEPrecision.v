(** Precision of the IDE solver: every computed jump function and value is
    below a finite join over valid runs, for every schedule. *)
From Coq Require Import List Bool Permutation Lia.
From Verif Require Import Assoc TableModel TableProofs JumpFunctionsModel JumpFunctionsProofs
  IDESolverModel IDESpec IDEPhase1 IDEPhase2 IDEInvariant IDESound.
Import ListNotations.

Section Prec.
  Context {N F D L EF : Type} `{EqDec N} `{EqDec F} `{EqDec D}.
  Variable G : icfg N F.
  Variable P : problem N F D L EF.
  Variable S0 : @seeds N D L.
  Hypothesis WF : icfg_wf G.
  Hypothesis LL : lattice_laws P.
  Hypothesis ES : ef_sound P.
  Variable Sh : D -> N -> D -> EF -> Prop.
  Hypothesis EP : ef_precise_on G P Sh.
  Hypothesis ONE : single_start G.
  Hypothesis DECL : summaries_for_declarations G P.
  Hypothesis START : seeds_at_starts G S0.

  Notation lle := (lle P).
  Notation ap := (apply P).
  Notation state := (@state N D EF).
  Notation any := (@anyval L).
  Notation val := (val P).
  Notation nt := (nt P).

  (** ** finite joins *)
  Inductive below (R : L -> Prop) : L -> Prop :=
  | bl_in v : R v -> below R v
  | bl_join x y : below R x -> below R y -> below R (joinL P x y)
  | bl_le x y : lle x y -> below R y -> below R x.

  Lemma below_bind (R R' : L -> Prop) f x :
    below R x -> (forall v, R v -> below R' (ap f v)) -> below R' (ap f x).
  Proof.
    intros Hb Hr. induction Hb as [v Hv|x y Hx IHx Hy IHy|x y Hle Hy IHy]; auto.
    - rewrite (eo_distr _ _ _ EP). apply bl_join; auto.
    - eapply bl_le; [apply (es_mono _ ES); eauto|auto].
  Qed.
  Lemma below_map (R R' : L -> Prop) f x :
    below R x -> (forall v, R v -> R' (ap f v)) -> below R' (ap f x).
  Proof. intros Hb Hr. eapply below_bind; eauto. intros; apply bl_in; auto. Qed.
  Lemma below_weaken (R R' : L -> Prop) x : below R x -> (forall v, R v -> R' v) -> below R' x.
  Proof. intros Hb Hr. induction Hb; [apply bl_in|apply bl_join|eapply bl_le]; eauto. Qed.
  Lemma below_inh R x : below R x -> exists v, R v.
  Proof. intros Hb. induction Hb; eauto. Qed.

  Lemma fold_join_le (vs : list L) : forall v u, lle v u -> lle v (fold_left (joinL P) vs u).
  Proof.
    induction vs as [|w vs IH]; intros v u Hle; simpl; auto.
    apply IH. eapply lle_trans; [exact LL|exact Hle|]. apply lle_join_l; auto.
  Qed.
  Lemma fold_join_mono (vs : list L) : forall v u, lle v u ->
    lle (fold_left (joinL P) vs v) (fold_left (joinL P) vs u).
  Proof.
    induction vs as [|w vs IH]; intros v u Hle; simpl; auto.
    apply IH. apply lle_join_lub; auto.
    - eapply lle_trans; [exact LL|exact Hle|]. apply lle_join_l; auto.
    - apply lle_join_r; auto.
  Qed.

  Lemma below_below_join R x : below R x <-> below_join P R x.
  Proof.
    split.
    - intros Hb. induction Hb as [v Hv|x y Hx IHx Hy IHy|x y Hle Hy IHy].
      + exists v, []. repeat split; auto. apply lle_refl; auto.
      + destruct IHx as (v & vs & Hv & Hvs & Hxle). destruct IHy as (w & ws & Hw & Hws & Hyle).
        exists v, (vs ++ w :: ws). split; [auto|split].
        * apply Forall_app; auto.
        * rewrite fold_left_app. simpl. apply lle_join_lub; auto.
          -- apply fold_join_le. eapply lle_trans; [exact LL|exact Hxle|]. apply lle_join_l; auto.
          -- eapply lle_trans; [exact LL|exact Hyle|]. apply fold_join_mono. apply lle_join_r; auto.
      + destruct IHy as (v & vs & Hv & Hvs & Hyle). exists v, vs. repeat split; auto.
        eapply lle_trans; eauto.
    - intros (v & vs & Hv & Hvs & Hle). eapply bl_le; [exact Hle|]. clear Hle x.
      assert (Hb : below R v) by (apply bl_in; auto). clear Hv. revert v Hb.
      induction Hvs as [|w vs Hw Hvs IH]; intros v Hb; simpl; auto.
      apply IH. apply bl_join; auto. apply bl_in; auto.
  Qed.

  (** ** runs *)
  Lemma estep_app S1 n d v S2 n' d' v' S :
    estep G P (S1, n, d, v) (S2, n', d', v') -> estep G P (S1 ++ S, n, d, v) (S2 ++ S, n', d', v').
  Proof.
    intros Hs; inversion Hs; subst; simpl.
    - eapply es_normal; eauto.
    - eapply es_ctr; eauto.
    - eapply es_summary; eauto.
    - eapply es_call; eauto.
    - eapply es_ret; eauto.
  Qed.

  Lemma reach_trans X sp d w cf S :
    reach G P any [(sp, [(d, w)])] cf -> reach G P any X (S, sp, d, w) ->
    let '(stk, n', d', v) := cf in reach G P any X (stk ++ S, n', d', v).
  Proof.
    intros Hr HX. induction Hr as [n facts d0 v Hin Hf _|[[[S1 n1] d1] v1] S2 n d0 v Hr IH Hs _].
    - destruct Hin as [E|[]]. injection E; intros; subst. destruct Hf as [E2|[]].
      injection E2; intros; subst. exact HX.
    - eapply reach_step; [exact IH| |exact I]. apply estep_app; auto.
  Qed.

  Definition actv sp d : Prop := exists stk v, reach G P any S0 (stk, sp, d, v).

  Definition run sp d1 x n d2 (v : L) : Prop := reach G P any [(sp, [(d1, x)])] ([], n, d2, v).

  Definition RJ d1 n d2 (f : EF) : Prop :=
    Sh d1 n d2 f /\ exists sp, In sp (getStartPointsOf G (getFunctionOf G n)) /\ actv sp d1 /\
      forall x, below (run sp d1 x n d2) (ap f x).

  Lemma run_step sp d1 x n d2 v n' d3 w :
    run sp d1 x n d2 v -> estep G P ([], n, d2, v) ([], n', d3, w) -> run sp d1 x n' d3 w.
  Proof. intros Hr Hs. eapply reach_step; eauto. exact I. Qed.

  Lemma RJ_extend d1 n d2 f n' d3 e : nt f ->
    RJ d1 n d2 f -> getFunctionOf G n' = getFunctionOf G n ->
    (forall v, estep G P ([], n, d2, v) ([], n', d3, ap e v)) -> (Sh d1 n d2 f -> Sh d1 n' d3 (extend P f e)) ->
    RJ d1 n' d3 (extend P f e).
  Proof.
    intros Hnt (HS & sp & Hsp & Ha & Hr) Ef Hs HS'. split; auto. exists sp. rewrite Ef. repeat split; auto.
    intros x. eapply bl_le; [apply (eo_extend _ _ _ EP); auto|].
    eapply below_map; [apply Hr|]. intros v Hv. eapply run_step; eauto.
  Qed.

  Lemma RJ_combine d1 n d2 f g : RJ d1 n d2 f -> RJ d1 n d2 g -> RJ d1 n d2 (combine P f g).
  Proof.
    intros (HS & sp & Hsp & Ha & Hr) (HS' & sp' & Hsp' & _ & Hr'). split; [apply (sh_combine _ _ _ EP); auto|].
    rewrite (ONE _ _ _ Hsp' Hsp) in Hr'. exists sp. repeat split; auto.
    intros x. eapply bl_le; [eapply (eo_combine _ _ _ EP); eauto|]. apply bl_join; auto.
  Qed.

  Lemma RJ_le d1 n d2 f g : efle P f g -> Sh d1 n d2 f -> RJ d1 n d2 g -> RJ d1 n d2 f.
  Proof.
    intros Hle HS (_ & sp & Hsp & Ha & Hr). split; auto. exists sp. repeat split; auto.
    intros x. eapply bl_le; [apply Hle|auto].
  Qed.

  Lemma RJ_id sp d : In sp (getStartPointsOf G (getFunctionOf G sp)) -> actv sp d ->
    RJ d sp d (edgeIdentity P).
  Proof.
    intros Hsp Ha. split; [apply (sh_start _ _ _ EP)|]. exists sp. repeat split; auto. intros x. rewrite (es_id _ ES). apply bl_in.
    eapply reach_seed; [left; reflexivity|left; reflexivity|exact I].
  Qed.

  Lemma RJ_actv d1 n d2 f : RJ d1 n d2 f -> exists stk v, reach G P any S0 (stk, n, d2, v).
  Proof.
    intros (_ & sp & Hsp & (stk & w & Ha) & Hr). destruct (below_inh _ _ (Hr w)) as [v Hv].
    exists stk, v. exact (reach_trans _ _ _ _ _ _ Hv Ha).
  Qed.

  (** a call followed by a same-level run of the callee and the return *)
  Lemma RJ_return d1 c d2 f callee d3 fs e d4 r d5 :
    nt f -> nt fs -> RJ d1 c d2 f -> RJ d3 e d4 fs ->
    isCallSite G c = true -> In callee (getCalleesOfCallAt G c) -> sumFF P c callee = None ->
    In d3 (callFF P c callee d2) -> getFunctionOf G e = callee ->
    isCallSite G e = false -> isExitInst G e = true ->
    In r (getReturnSitesOfCallAt G c) -> In d5 (retFF P c callee e r d4) ->
    RJ d1 r d5 (retFn P c d2 callee d3 fs e d4 r d5 f).
  Proof.
    intros Hf Hfs (HS & sp & Hsp & Ha & Hr) (HS3 & sp3 & Hsp3 & Ha3 & Hr3) Hc Hcal Hsum Hd3 Ee He1 He2 Hr' Hd5.
    split; [eapply (sh_return _ _ _ EP); eauto|]. exists sp. rewrite (wf_ret_fun _ WF _ _ Hr'). repeat split; auto.
    intros x. unfold retFn.
    eapply bl_le; [apply (eo_extend _ _ _ EP); auto|].
    eapply below_bind; [apply Hr|]. intros v Hv.
    eapply bl_le; [apply (eo_extend _ _ _ EP); apply (eo_extend_nt _ _ _ EP); auto; apply (eo_call_nt _ _ _ EP)|].
    assert (Hb : below (fun w => reach G P any [(sp, [(d1, x)])] ([(c, callee)], e, d4, w))
                   (ap (extend P (callEF P c d2 callee d3) fs) v)).
    { eapply bl_le; [apply (eo_extend _ _ _ EP); apply (eo_call_nt _ _ _ EP)|].
      eapply below_weaken; [apply Hr3|]. intros w Hw.
      refine (reach_trans _ _ _ _ _ [(c, callee)] Hw _).
      eapply reach_step; [exact Hv| |exact I]. rewrite Ee in Hsp3. eapply es_call; eauto. }
    eapply below_map; [exact Hb|]. intros w Hw. eapply reach_step; [exact Hw| |exact I].
    eapply es_ret; eauto.
  Qed.

  (** ** phase I invariant *)
  Lemma start_self sp f : In sp (getStartPointsOf G f) -> In sp (getStartPointsOf G (getFunctionOf G sp)).
  Proof. intros Hsp. rewrite (wf_start_fun _ WF _ _ Hsp). auto. Qed.

  Lemma RJ_rules : rules G P false S0 RJ.
  Proof.
    split; try discriminate.
    - intros. eapply RJ_extend; eauto; [apply (wf_succ_fun _ WF); auto|intros v; eapply es_normal; eauto|].
      intros HS. apply (sh_normal _ _ _ EP); auto.
    - intros. eapply RJ_extend; eauto; [apply (wf_ret_fun _ WF); auto|intros v; eapply es_ctr; eauto|].
      intros HS. apply (sh_ctr _ _ _ EP); auto.
    - intros. eapply RJ_extend; eauto; [apply (wf_ret_fun _ WF); auto|intros v; eapply es_summary; eauto|].
      intros HS. eapply (sh_sum _ _ _ EP); eauto.
    - intros d1 n d2 f callee sp d3 Hnt HR Hc Hcal Hs Hsp Hd. apply RJ_id; [eapply start_self; eauto|].
      destruct (RJ_actv _ _ _ _ HR) as (stk & v & Hr).
      do 2 eexists. eapply reach_step; [exact Hr| |exact I]. eapply es_call; eauto.
    - intros. eapply RJ_return; eauto.
    - apply RJ_combine.
    - intros d1 n d2 f HR. eapply RJ_le; [|apply (sh_first _ _ _ EP), (proj1 HR)|exact HR]. intros x.
      apply (eo_first _ _ _ EP).
    - intros n facts d v Hin Hf. apply RJ_id.
      + apply (wf_start _ WF). eapply START; eauto.
      + exists [], v. eapply reach_seed; eauto. exact I.
  Qed.

  (** ** phase II *)
  Section Vals.
    Variable st : state.
    Hypothesis HI : PInv G P false RJ st.

    Definition Good n d (x : L) : Prop := below (fun v => exists stk, reach G P any S0 (stk, n, d, v)) x.

    Lemma Good_jf sp d1 n d2 f x : jf_get (st_jf st) d1 n d2 = Some f ->
      In sp (getStartPointsOf G (getFunctionOf G n)) -> Good sp d1 x -> Good n d2 (ap f x).
    Proof.
      intros Hf Hsp HG. destruct (p_jf _ _ _ _ _ HI _ _ _ _ Hf) as (_ & sp' & Hsp' & _ & Hr).
      rewrite (ONE _ _ _ Hsp' Hsp) in Hr.
      eapply below_bind; [exact HG|]. intros v [stk Hv].
      eapply below_weaken; [apply Hr|]. intros w Hw. exists stk.
      exact (reach_trans _ _ _ _ _ _ Hw Hv).
    Qed.

    Lemma Good_act n d x n' d' f : Good n d x -> In (n', d', f) (acts G P S0 [] (st_jf st) n d) ->
      ap f x = topElement P \/ Good n' d' (ap f x).
    Proof.
      intros HG Hin. right. unfold acts in Hin. apply in_app_iff in Hin. destruct Hin as [Hin|Hin].
      - destruct (startLike G S0 [] n) eqn:Es; [|destruct Hin].
        assert (Hst : isStartPoint G n = true).
        { unfold startLike in Es. apply orb_true_iff in Es. destruct Es as [Es|Es]; [|discriminate].
          apply orb_true_iff in Es. destruct Es as [Es|Es]; auto.
          destruct (afind n S0) eqn:E; [|discriminate]. apply afind_In in E. eapply START; eauto. }
        unfold actsStart in Hin. apply in_flat_map in Hin. destruct Hin as [c [Hc Hin]].
        apply in_map_iff in Hin. destruct Hin as [[d0 f0] [E Hl]]. injection E; intros; subst.
        apply (proj1 (In_fwdl (isAllTop P) _ _ _ _ _ (p_ok _ _ _ _ _ HI))) in Hl.
        apply Good_jf with (sp := n) (d1 := d); auto.
        rewrite (wf_calls_fun _ WF _ _ Hc). apply (wf_start _ WF). auto.
      - destruct (isCallSite G n) eqn:Ec; [|destruct Hin].
        unfold actsCall in Hin. apply in_flat_map in Hin. destruct Hin as [callee [Hcal Hin]].
        apply in_flat_map in Hin. destruct Hin as [d0 [Hd Hin]].
        apply in_map_iff in Hin. destruct Hin as [sp [E Hsp]]. injection E; intros; subst.
        destruct (sumFF P n callee) as [sf|] eqn:Es.
        { rewrite (DECL _ _ _ Es) in Hsp. destruct Hsp. }
        eapply below_map; [exact HG|]. intros v [stk Hv]. eexists.
        eapply reach_step; [exact Hv| |exact I]. eapply es_call; eauto.
    Qed.

    Lemma Good_seed n d l : In (n, d, l) (seedCells (allSeeds P S0 [])) -> Good n d l.
    Proof.
      simpl. intros Hin. apply seedCells_In in Hin. destruct Hin as [facts [Hin Hf]].
      apply bl_in. exists []. eapply reach_seed; eauto. exact I.
    Qed.

    Lemma values_precise v :
      vsteps G P S0 [] (st_jf st) (submitInitialValues G P S0 [] (st_jf st) (mkV [] [])) v ->
      forall n d x, t_lookup (valueComputationTask G P (st_jf st) (v_tab v)) n d = Some x -> Good n d x.
    Proof.
      intros Hv.
      destruct (phase2_good G P S0 [] (st_jf st) LL Good
        (fun n d x y hx hy => bl_join _ _ _ hx hy) Good_act Good_seed v Hv) as [HV _].
      apply fill_good; auto.
      - intros n sp n' Hn Hsp ->. apply (wf_rest _ WF) in Hn. destruct Hn as [_ Hn].
        rewrite (proj2 (wf_start _ WF n)) in Hn; [discriminate|].
        rewrite (wf_start_fun _ WF _ _ Hsp). auto.
      - intros; apply bl_join; auto.
      - intros n d sp d' f Hin. apply fillActs_In in Hin; [|apply (p_ok _ _ _ _ _ HI)].
        destruct Hin as (Hn & Hsp & Hf).
        unfold IDESolverModel.val. destruct (t_lookup (v_tab v) sp d') as [x|] eqn:E.
        + apply Good_jf with (sp := sp) (d1 := d'); auto.
        + destruct (p_jf _ _ _ _ _ HI _ _ _ _ Hf) as (_ & sp' & Hsp' & (stk & w & Ha) & _).
          rewrite (ONE _ _ _ Hsp' Hsp) in Ha.
          eapply bl_le; [apply (es_mono _ ES); apply (lle_top P LL w)|].
          apply Good_jf with (sp := sp) (d1 := d'); auto. apply bl_in. exists stk. exact Ha.
    Qed.
  End Vals.
End Prec.

Section ExactOn.
  Context {N F D L EF : Type} `{EqDec N} `{EqDec F} `{EqDec D}.
  Variable G : icfg N F.
  Variable P : problem N F D L EF.
  Hypothesis WF : icfg_wf G.
  Hypothesis LL : lattice_laws P.
  Hypothesis ES : ef_sound P.
  Variable Sh : D -> N -> D -> EF -> Prop.
  Hypothesis EP : ef_precise_on G P Sh.
  Hypothesis ONE : single_start G.
  Hypothesis DECL : summaries_for_declarations G P.

  Lemma solved_PInv_on S st T : seeds_at_starts G S -> solved G P false S st T ->
    PInv G P false (RJ G P (addZeroSeeds P S) Sh) st.
  Proof.
    intros Hst (st0 & v & [EJ [EE [EI [EU HP]]]] & Hs & Hw & _).
    assert (RU := RJ_rules G P (addZeroSeeds P S) WF ES Sh EP ONE (addZeroSeeds_starts G P S Hst)).
    eapply PInv_psteps; eauto. eapply PInv_init; eauto.
  Qed.

  Lemma solver_precise_on S st T n d x :
    seeds_at_starts G S -> solved G P false S st T -> t_lookup T n d = Some x ->
    below_join P (fun v => exists stk, reach G P (@anyval L) (addZeroSeeds P S) (stk, n, d, v)) x.
  Proof.
    intros Hst Hs HT. pose proof (solved_PInv_on _ _ _ Hst Hs) as HI.
    destruct Hs as (st0 & vf & _ & _ & _ & Hv & Hvw & ->).
    rewrite (p_unb _ _ _ _ _ HI eq_refl) in Hv.
    apply below_below_join; auto.
    eapply values_precise; eauto using addZeroSeeds_starts.
  Qed.

  Lemma jump_functions_precise_on S st T d1 n d2 f :
    seeds_at_starts G S -> solved G P false S st T -> jf_get (st_jf st) d1 n d2 = Some f ->
    exists sp, In sp (getStartPointsOf G (getFunctionOf G n)) /\
      (exists stk v, reach G P (@anyval L) (addZeroSeeds P S) (stk, sp, d1, v)) /\
      forall x, below_join P (fun v => reach G P (@anyval L) [(sp, [(d1, x)])] ([], n, d2, v)) (apply P f x).
  Proof.
    intros Hst Hs Hf. destruct (p_jf _ _ _ _ _ (solved_PInv_on _ _ _ Hst Hs) _ _ _ _ Hf) as (_ & sp & Hsp & Ha & Hr).
    exists sp. repeat split; auto. intros x. apply below_below_join; auto. apply Hr.
  Qed.

End ExactOn.

Section Exact.
  Context {N F D L EF : Type} `{EqDec N} `{EqDec F} `{EqDec D}.
  Variable G : icfg N F.
  Variable P : problem N F D L EF.
  Hypothesis WF : icfg_wf G.
  Hypothesis LL : lattice_laws P.
  Hypothesis ES : ef_sound P.
  Hypothesis EP : ef_precise P.
  Hypothesis ONE : single_start G.
  Hypothesis DECL : summaries_for_declarations G P.

  Lemma precise_everywhere : ef_precise_on G P (fun _ _ _ _ => True).
  Proof.
    split; auto; try apply EP.
    - intros. apply (ep_combine _ EP).
    - intros f x. eapply lle_trans; [exact LL|apply (ep_combine _ EP)|].
      rewrite (es_top _ ES), (ll_top _ LL). apply lle_refl; auto.
  Qed.

  Lemma solver_precise S st T n d x :
    seeds_at_starts G S -> solved G P false S st T -> t_lookup T n d = Some x ->
    below_join P (fun v => exists stk, reach G P (@anyval L) (addZeroSeeds P S) (stk, n, d, v)) x.
  Proof. eapply solver_precise_on; eauto using precise_everywhere. Qed.

  Lemma jump_functions_precise S st T d1 n d2 f :
    seeds_at_starts G S -> solved G P false S st T -> jf_get (st_jf st) d1 n d2 = Some f ->
    exists sp, In sp (getStartPointsOf G (getFunctionOf G n)) /\
      (exists stk v, reach G P (@anyval L) (addZeroSeeds P S) (stk, sp, d1, v)) /\
      forall x, below_join P (fun v => reach G P (@anyval L) [(sp, [(d1, x)])] ([], n, d2, v)) (apply P f x).
  Proof. eapply jump_functions_precise_on; eauto using precise_everywhere. Qed.

  (** no run loses a value to top *)
  Lemma reach_nontop S0 (NT : nontop_preserving G P)
    (HS : forall n facts d v, In (n, facts) S0 -> In (d, v) facts -> nontop P v) cf :
    reach G P (@anyval L) S0 cf -> reach G P (nontop P) S0 cf.
  Proof.
    intros Hr. assert (Hx : reach G P (nontop P) S0 cf /\ nontop P (snd cf)); [|apply Hx].
    induction Hr as [n facts d v Hin Hf _|c stk n d v Hr [IH IHv] Hs _].
    - split; [|simpl; eauto]. eapply reach_seed; eauto.
    - assert (Hv : nontop P v) by (eapply NT; eauto). split; auto. eapply reach_step; eauto.
  Qed.
End Exact.
