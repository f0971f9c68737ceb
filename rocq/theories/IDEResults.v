(** The solver theorems in the form used by IDEProperties.v. *)
From Coq Require Import List Bool.
From Verif Require Import Assoc TableModel JumpFunctionsModel JumpFunctionsProofs IDESolverModel IDESpec
  IDEPhase1 IDEPhase2 IDEInvariant IDESound IDEPrecision IDESchedule IDETermination.
Import ListNotations.

Section Results.
  Context {N F D L EF : Type} `{EqDec N} `{EqDec F} `{EqDec D}.
  Variable G : icfg N F.
  Variable P : problem N F D L EF.

  Lemma aset_In' (l : list (D * L)) k x d v : In (d, v) (aset k x l) -> (d = k /\ v = x) \/ In (d, v) l.
  Proof.
    induction l as [|[k0 x0] l IH]; simpl.
    - intros [E|[]]. injection E; intros; subst; auto.
    - destruct (eq_dec k k0).
      + intros [E|Hi]; [injection E; intros; subst; auto|right; right; auto].
      + intros [E|Hi]; [right; left; auto|]. destruct (IH Hi); auto.
  Qed.
  Lemma In_aset_absent (l : list (D * L)) k x d v : afind k l = None -> In (d, v) l -> In (d, v) (aset k x l).
  Proof.
    induction l as [|[k0 x0] l IH]; simpl; [intros _ []|].
    destruct (eq_dec k k0); [discriminate|]. intros Hn [E|Hi]; [left; auto|right; auto].
  Qed.

  (** the solver's seed preparation realises [holds_initially] *)
  Lemma addZeroSeeds_spec S n d v :
    (exists facts, In (n, facts) (addZeroSeeds P S) /\ In (d, v) facts) <-> holds_initially P S n d v.
  Proof.
    unfold addZeroSeeds, holds_initially. split.
    - intros (facts & Hin & Hf). apply in_map_iff in Hin. destruct Hin as [[n0 f0] [E Hin]].
      injection E; intros Ef ->. clear E. exists f0. split; auto.
      destruct (afind (zeroValue P) f0) eqn:Ez; rewrite <- Ef in Hf; auto.
      apply aset_In' in Hf. destruct Hf as [[-> ->]|Hf]; auto. right. repeat split; auto.
      intros v' Hv'. apply afind_None in Ez. apply Ez. apply in_map_iff. exists (zeroValue P, v'). auto.
    - intros (f0 & Hin & Hf).
      exists (match afind (zeroValue P) f0 with Some _ => f0 | None => aset (zeroValue P) (bottomElement P) f0 end).
      split; [apply in_map_iff; exists (n, f0); auto|].
      destruct (afind (zeroValue P) f0) as [v0|] eqn:Ez.
      + destruct Hf as [Hf|(_ & _ & Hn)]; auto. exfalso. apply (Hn v0). apply afind_In; auto.
      + destruct Hf as [Hf|(-> & -> & _)]; [apply In_aset_absent; auto|apply afind_In, afind_aset_eq].
  Qed.

  Lemma vpath_reach_gen Q (Init : N -> D -> L -> Prop) (S0 : @seeds N D L) :
    (forall n d v, (exists facts, In (n, facts) S0 /\ In (d, v) facts) <-> Init n d v) ->
    forall cf, vpath G P Q Init cf <-> reach G P Q S0 cf.
  Proof.
    intros HI cf. split; intros Hr.
    - induction Hr as [n d v Hi Hq|c stk n d v _ IH Hs Hq].
      + apply HI in Hi. destruct Hi as (facts & Hin & Hf). eapply reach_seed; eauto.
      + eapply reach_step; eauto.
    - induction Hr as [n facts d v Hin Hf Hq|c stk n d v _ IH Hs Hq].
      + apply vp_init; auto. apply HI. eauto.
      + eapply vp_step; eauto.
  Qed.
  Lemma vpath_reach Q S cf : vpath G P Q (holds_initially P S) cf <-> reach G P Q (addZeroSeeds P S) cf.
  Proof. apply vpath_reach_gen. apply addZeroSeeds_spec. Qed.
  Lemma vpath_single Q sp d1 x cf :
    vpath G P Q (fun n d v => n = sp /\ d = d1 /\ v = x) cf <-> reach G P Q [(sp, [(d1, x)])] cf.
  Proof.
    apply vpath_reach_gen. intros n d v. split.
    - intros (facts & [E|[]] & Hf). injection E; intros; subst. destruct Hf as [E2|[]]. injection E2; auto.
    - intros (-> & -> & ->). exists [(d1, x)]. simpl; auto.
  Qed.

  (** stored jump function applied to a value, top if there is none *)
  Definition jfAt (J : jumpfns N D EF) (d1 : D) (n : N) (d2 : D) (x : L) : L :=
    match jf_get J d1 n d2 with Some f => apply P f x | None => topElement P end.

  Lemma start_active follow (WF : icfg_wf G) (LL : lattice_laws P) (ES : ef_sound_nt P) S st T stk sp d1 v0 :
    seeds_at_starts G S -> solved G P follow S st T -> isStartPoint G sp = true ->
    reach G P (nontop P) (addZeroSeeds P S) (stk, sp, d1, v0) -> active P (st_jf st) sp d1.
  Proof.
    intros Hst Hs Hsp Hr. destruct (solved_Inv G P follow WF LL ES _ _ _ Hs) as [HI Hw].
    inversion Hr as [n facts d v Hin Hf Hv|[[[S1 n1] d0] v1] stk' n d v Hr1 He Hv]; subst.
    - eapply seed_active; eauto.
    - destruct (reach_cfg G P WF LL ES _ _ HI Hw (addZeroSeeds_starts G P _ Hst) _ _ _ _ Hr1) as [Hv1 Hc].
      inversion He; subst;
        try (exfalso;
             match goal with
             | Hx : In sp (getSuccsOf G _) |- _ => rewrite (wf_succ_nostart _ WF _ _ Hx) in Hsp
             | Hx : In sp (getReturnSitesOfCallAt G _) |- _ => rewrite (wf_ret_nostart _ WF _ _ Hx) in Hsp
             end; discriminate).
      assert (Hcell : exists d2 f, jf_get (st_jf st) d2 n1 d0 = Some f).
      { inversion Hc; subst; [edestruct (jfn_some P LL ES) as [f [Ef _]]; [exact Hv1| |]; eauto..]. }
      destruct Hcell as [d2 [f Ef]].
      eapply cov_done; eauto. eapply (i_call _ _ _ _ HI); eauto.
      apply in_app_iff. left. apply in_flat_map. exists callee. split; auto.
      match goal with E : sumFF P n1 callee = None |- _ => rewrite E end.
      apply in_flat_map. exists sp. split; auto. apply in_map_iff. eauto.
  Qed.

  Lemma jump_functions_sound_run follow (WF : icfg_wf G) (LL : lattice_laws P) (ES : ef_sound_nt P)
      S st T stk sp d1 v0 x n d2 v :
    seeds_at_starts G S -> solved G P follow S st T -> isStartPoint G sp = true ->
    reach G P (nontop P) (addZeroSeeds P S) (stk, sp, d1, v0) ->
    reach G P (nontop P) [(sp, [(d1, x)])] ([], n, d2, v) ->
    lle P v (jfAt (st_jf st) d1 n d2 x).
  Proof.
    intros Hst Hs Hsp Hr0 Hr. pose proof (start_active follow WF LL ES _ _ _ _ _ _ _ Hst Hs Hsp Hr0) as Ha.
    destruct (solved_Inv G P follow WF LL ES _ _ _ Hs) as [HI Hw].
    assert (Hj : lle P v (apply P (jfn P (st_jf st) d1 n d2) x)).
    { eapply jump_functions_sound; eauto. apply (wf_start _ WF); auto. }
    unfold jfAt. unfold jfn in Hj. destruct (jf_get (st_jf st) d1 n d2); auto.
    rewrite (en_top _ ES) in Hj. auto.
  Qed.

  (** no edge loses a value: reach with any values is reach with non-top values *)
  Lemma seeds_nontop S : bottomElement P <> topElement P ->
    (forall n facts d v, In (n, facts) S -> In (d, v) facts -> nontop P v) ->
    forall n facts d v, In (n, facts) (addZeroSeeds P S) -> In (d, v) facts -> nontop P v.
  Proof.
    intros Hb HS n facts d v Hin Hf. unfold addZeroSeeds in Hin. apply in_map_iff in Hin.
    destruct Hin as [[n0 f0] [E Hin]]. injection E; intros; subst. clear E.
    destruct (afind (zeroValue P) f0); [eauto|].
    assert (HA : forall (l : list (D * L)) k x, In (d, v) (aset k x l) -> v = x \/ In (d, v) l).
    { induction l as [|[k0 x0] l IH]; intros k x Hi; simpl in Hi.
      - destruct Hi as [E|[]]. injection E; auto.
      - destruct (eq_dec k k0).
        + destruct Hi as [E|Hi]; [injection E; auto|right; right; auto].
        + destruct Hi as [E|Hi]; [right; left; auto|]. destruct (IH _ _ Hi); auto. right; right; auto. }
    destruct (HA _ _ _ Hf) as [->|Hf']; [auto|eauto].
  Qed.

  Lemma solver_lub (WF : icfg_wf G) (LL : lattice_laws P) (ES : ef_sound P) (EP : ef_precise P)
      (ONE : single_start G) (DECL : summaries_for_declarations G P) (NT : nontop_preserving G P)
      (HB : bottomElement P <> topElement P) S st T :
    (forall n facts d v, In (n, facts) S -> In (d, v) facts -> nontop P v) ->
    seeds_at_starts G S -> solved G P false S st T ->
    forall n d,
      let R := fun v => exists stk, reach G P (@anyval L) (addZeroSeeds P S) (stk, n, d, v) in
      (forall v, R v -> lle P v (val P T n d)) /\
      (forall u, (forall v, R v -> lle P v u) -> lle P (val P T n d) u).
  Proof.
    intros HS Hst Hs n d R. split.
    - intros v [stk Hr]. eapply solver_sound; eauto using ef_sound_weaken. eapply reach_nontop; eauto. apply seeds_nontop; auto.
    - intros u Hu. unfold val. destruct (t_lookup T n d) as [x|] eqn:E; [|apply lle_top; auto].
      destruct (solver_precise G P WF LL ES EP ONE DECL _ _ _ _ _ _ Hst Hs E) as (v & vs & Hv & Hvs & Hle).
      eapply lle_trans; [exact LL|exact Hle|]. clear Hle E.
      assert (Hvu : lle P v u) by auto. clear Hv. revert v Hvu.
      induction Hvs as [|w ws Hw _ IH]; intros v Hvu; simpl; auto.
      apply IH. apply lle_join_lub; auto.
  Qed.

  (** a key is present exactly if some run reaches the fact *)
  Lemma solver_keys (WF : icfg_wf G) (LL : lattice_laws P) (ES : ef_sound P) (EP : ef_precise P)
      (ONE : single_start G) (DECL : summaries_for_declarations G P) (NT : nontop_preserving G P)
      (HB : bottomElement P <> topElement P) S st T :
    (forall n facts d v, In (n, facts) S -> In (d, v) facts -> nontop P v) ->
    seeds_at_starts G S -> solved G P false S st T ->
    forall n d, t_lookup T n d <> None <->
      exists stk v, reach G P (@anyval L) (addZeroSeeds P S) (stk, n, d, v).
  Proof.
    intros HS Hst Hs n d. split.
    - intros Hk. destruct (t_lookup T n d) as [x|] eqn:E; [|congruence].
      destruct (solver_precise G P WF LL ES EP ONE DECL _ _ _ _ _ _ Hst Hs E) as (v & vs & [stk Hv] & _).
      eauto.
    - intros (stk & v & Hr) Hn.
      assert (Hr' : reach G P (nontop P) (addZeroSeeds P S) (stk, n, d, v)).
      { eapply reach_nontop; eauto. apply seeds_nontop; auto. }
      assert (Hle : lle P v (val P T n d)) by (eapply solver_sound; eauto using ef_sound_weaken).
      unfold val in Hle. rewrite Hn in Hle.
      assert (Hv : nontop P v) by (inversion Hr'; auto).
      apply Hv. eapply lle_to_top; eauto.
  Qed.

  (** schedules obtained by running phase I from any initial worklist order *)
  Lemma run_solved follow S st0 st v f1 f2 :
    pinit P S st0 -> runPhaseI G P follow f1 st0 = Some st ->
    runPhaseIIi G P f2 (addZeroSeeds P S) (st_unb st) (st_jf st)
      (submitInitialValues G P (addZeroSeeds P S) (st_unb st) (st_jf st) (mkV [] [])) = Some v ->
    solved G P follow S st (valueComputationTask G P (st_jf st) (v_tab v)).
  Proof.
    intros Hp E1 E2.
    assert (Q1 : forall f s0 s', runPhaseI G P follow f s0 = Some s' ->
       forall s1, psteps G P follow s1 s0 -> psteps G P follow s1 s' /\ st_wl s' = []).
    { induction f as [|f IH]; intros s0 s' E s1 Hs; simpl in E; destruct (st_wl s0) eqn:Ew; try discriminate;
        try (injection E; intros <-; auto; fail).
      destruct (doNext G P follow s0) as [s2|] eqn:Ed; [|discriminate].
      eapply IH; eauto. eapply psteps_step; eauto. apply doNext_pstep; auto. }
    assert (Q2 : forall f s0 s', runPhaseIIi G P f (addZeroSeeds P S) (st_unb st) (st_jf st) s0 = Some s' ->
       forall s1, vsteps G P (addZeroSeeds P S) (st_unb st) (st_jf st) s1 s0 ->
       vsteps G P (addZeroSeeds P S) (st_unb st) (st_jf st) s1 s' /\ v_wl s' = []).
    { induction f as [|f IH]; intros s0 s' E s1 Hs; simpl in E; destruct (v_wl s0) eqn:Ew; try discriminate;
        try (injection E; intros <-; auto; fail).
      destruct (vNext G P (addZeroSeeds P S) (st_unb st) (st_jf st) s0) as [s2|] eqn:Ed; [|discriminate].
      eapply IH; eauto. eapply vsteps_step; eauto. apply vNext_vstep; auto. }
    exists st0, v.
    destruct (Q1 _ _ _ E1 st0 (psteps_refl _ _ _ _)) as [A1 A2].
    destruct (Q2 _ _ _ E2 _ (vsteps_refl _ _ _ _ _ _)) as [B1 B2].
    auto 8.
  Qed.

  (** ** the statements of IDEProperties.v *)
  Lemma vp_sound follow : icfg_wf G -> lattice_laws P -> ef_sound_nt P ->
    forall S st T, seeds_at_starts G S -> solved G P follow S st T ->
    forall stk n d v, vpath G P (nontop P) (holds_initially P S) (stk, n, d, v) -> lle P v (valueAt P T n d).
  Proof. intros WF LL ES S st T Hst Hs stk n d v Hr. apply vpath_reach in Hr. eapply solver_sound; eauto. Qed.

  Lemma vp_sound_nt follow : icfg_wf G -> lattice_laws P -> ef_sound_nt P -> nontop_preserving G P ->
    bottomElement P <> topElement P ->
    forall S st T, (forall n facts d v, In (n, facts) S -> In (d, v) facts -> nontop P v) ->
    seeds_at_starts G S -> solved G P follow S st T ->
    forall stk n d v, vpath G P (@anyval L) (holds_initially P S) (stk, n, d, v) -> lle P v (valueAt P T n d).
  Proof.
    intros WF LL ES NT HB S st T HS Hst Hs stk n d v Hr. apply vpath_reach in Hr.
    eapply solver_sound; eauto. eapply reach_nontop; eauto. apply seeds_nontop; auto.
  Qed.

  Lemma vp_lub (WF : icfg_wf G) (LL : lattice_laws P) (ES : ef_sound P) (EP : ef_precise P)
      (ONE : single_start G) (DECL : summaries_for_declarations G P) (NT : nontop_preserving G P)
      (HB : bottomElement P <> topElement P) S st T :
    (forall n facts d v, In (n, facts) S -> In (d, v) facts -> nontop P v) ->
    seeds_at_starts G S -> solved G P false S st T ->
    forall n d,
      let R := fun v => exists stk, vpath G P (@anyval L) (holds_initially P S) (stk, n, d, v) in
      (forall v, R v -> lle P v (valueAt P T n d)) /\
      (forall u, (forall v, R v -> lle P v u) -> lle P (valueAt P T n d) u) /\
      (t_lookup T n d <> None <-> exists v, R v).
  Proof.
    intros HS Hst Hs n d R.
    assert (HR : forall v, R v <-> exists stk, reach G P (@anyval L) (addZeroSeeds P S) (stk, n, d, v)).
    { intros v. split; intros [stk Hr]; exists stk; apply vpath_reach; auto. }
    destruct (solver_lub WF LL ES EP ONE DECL NT HB S st T HS Hst Hs n d) as [A B].
    split; [intros v Hv; apply A, HR; auto|]. split.
    - intros u Hu. apply B. intros v Hv. apply Hu, HR, Hv.
    - rewrite (solver_keys WF LL ES EP ONE DECL NT HB S st T HS Hst Hs n d). split.
      + intros (stk & v & Hr). exists v. apply HR. eauto.
      + intros [v Hv]. apply HR in Hv. destruct Hv as [stk Hr]. eauto.
  Qed.

  Lemma below_join_ext (R R' : L -> Prop) x : (forall v, R v -> R' v) -> below_join P R x -> below_join P R' x.
  Proof.
    intros HR (v & vs & Hv & Hvs & Hle). exists v, vs. split; auto. split; auto.
    eapply Forall_impl; [|exact Hvs]. auto.
  Qed.

  Lemma vp_precise : icfg_wf G -> lattice_laws P -> ef_sound P -> ef_precise P -> single_start G ->
    summaries_for_declarations G P ->
    forall S st T n d x, seeds_at_starts G S -> solved G P false S st T ->
    t_lookup T n d = Some x ->
    below_join P (fun v => exists stk, vpath G P (@anyval L) (holds_initially P S) (stk, n, d, v)) x.
  Proof.
    intros WF LL ES EP ONE DECL S st T n d x Hst Hs HT.
    eapply below_join_ext; [|eapply solver_precise; eauto].
    intros v [stk Hr]. exists stk. apply vpath_reach. auto.
  Qed.

  (** the same if joins are exact on the jump functions that occur *)
  Lemma vp_lub_on Sh (WF : icfg_wf G) (LL : lattice_laws P) (ES : ef_sound P) (EP : ef_precise_on G P Sh)
      (ONE : single_start G) (DECL : summaries_for_declarations G P) (NT : nontop_preserving G P)
      (HB : bottomElement P <> topElement P) S st T :
    (forall n facts d v, In (n, facts) S -> In (d, v) facts -> nontop P v) ->
    seeds_at_starts G S -> solved G P false S st T ->
    forall n d,
      let R := fun v => exists stk, vpath G P (@anyval L) (holds_initially P S) (stk, n, d, v) in
      (forall v, R v -> lle P v (valueAt P T n d)) /\
      (forall u, (forall v, R v -> lle P v u) -> lle P (valueAt P T n d) u) /\
      (t_lookup T n d <> None <-> exists v, R v).
  Proof.
    intros HS Hst Hs n d R.
    assert (HR : forall v, R v <-> exists stk, reach G P (@anyval L) (addZeroSeeds P S) (stk, n, d, v)).
    { intros v. split; intros [stk Hr]; exists stk; apply vpath_reach; auto. }
    assert (A : forall v, R v -> lle P v (valueAt P T n d)).
    { intros v [stk Hr]. eapply vp_sound_nt; eauto using ef_sound_weaken. }
    assert (BJ : forall x, t_lookup T n d = Some x -> below_join P R x).
    { intros x E. eapply below_join_ext; [|eapply solver_precise_on; eauto]. intros v Hv. now apply HR. }
    split; [exact A|]. split.
    - intros u Hu. unfold valueAt. destruct (t_lookup T n d) as [x|] eqn:E; [|apply lle_top; auto].
      destruct (BJ x eq_refl) as (v & vs & Hv & Hvs & Hle).
      eapply lle_trans; [exact LL|exact Hle|].
      assert (Hvu : lle P v u) by auto. clear Hv Hle. revert v Hvu.
      induction Hvs as [|w ws Hw _ IH]; intros v Hvu; simpl; auto.
      apply IH. apply lle_join_lub; auto.
    - split.
      + intros Hk. destruct (t_lookup T n d) as [x|]; [|congruence]. destruct (BJ x eq_refl) as (v & vs & Hv & _). eauto.
      + intros [v Hv] Hn. specialize (A v Hv). unfold valueAt in A. rewrite Hn in A. apply HR in Hv as [stk Hr].
        assert (Hr' : reach G P (nontop P) (addZeroSeeds P S) (stk, n, d, v)).
        { eapply reach_nontop; eauto. apply seeds_nontop; auto. }
        assert (Hv : nontop P v) by (inversion Hr'; auto).
        apply Hv. eapply lle_to_top; eauto.
  Qed.

  Lemma vp_precise_on Sh : icfg_wf G -> lattice_laws P -> ef_sound P -> ef_precise_on G P Sh -> single_start G ->
    summaries_for_declarations G P ->
    forall S st T n d x, seeds_at_starts G S -> solved G P false S st T ->
    t_lookup T n d = Some x ->
    below_join P (fun v => exists stk, vpath G P (@anyval L) (holds_initially P S) (stk, n, d, v)) x.
  Proof.
    intros WF LL ES EP ONE DECL S st T n d x Hst Hs HT.
    eapply below_join_ext; [|eapply solver_precise_on; eauto].
    intros v [stk Hr]. exists stk. apply vpath_reach. auto.
  Qed.

  Lemma vp_jf_sound follow : icfg_wf G -> lattice_laws P -> ef_sound_nt P ->
    forall S st T stk sp d1 v0 x n d2 v,
    seeds_at_starts G S -> solved G P follow S st T -> isStartPoint G sp = true ->
    vpath G P (nontop P) (holds_initially P S) (stk, sp, d1, v0) ->
    vpath G P (nontop P) (fun n d v => n = sp /\ d = d1 /\ v = x) ([], n, d2, v) ->
    lle P v (jfAt (st_jf st) d1 n d2 x).
  Proof.
    intros WF LL ES S st T stk sp d1 v0 x n d2 v Hst Hs Hsp Hr0 Hr. apply vpath_reach in Hr0. apply vpath_single in Hr.
    eapply jump_functions_sound_run; eauto.
  Qed.

  Lemma vp_jf_precise : icfg_wf G -> lattice_laws P -> ef_sound P -> ef_precise P -> single_start G ->
    forall S st T d1 n d2 f,
    seeds_at_starts G S -> solved G P false S st T -> jf_get (st_jf st) d1 n d2 = Some f ->
    exists sp, In sp (getStartPointsOf G (getFunctionOf G n)) /\
      (exists stk v, vpath G P (@anyval L) (holds_initially P S) (stk, sp, d1, v)) /\
      forall x, below_join P (fun v => vpath G P (@anyval L) (fun n d v => n = sp /\ d = d1 /\ v = x) ([], n, d2, v))
                  (apply P f x).
  Proof.
    intros WF LL ES EP ONE S st T d1 n d2 f Hst Hs Hf.
    destruct (jump_functions_precise G P WF LL ES EP ONE _ _ _ _ _ _ _ Hst Hs Hf) as (sp & Hsp & (stk & v & Hr) & Hb).
    exists sp. split; auto. split; [exists stk, v; apply vpath_reach; auto|].
    intros x. eapply below_join_ext; [|apply Hb]. intros w Hw. apply vpath_single. auto.
  Qed.

  (** phase II has no infinite schedule either *)
  Lemma no_infinite_phase2 follow (WF : icfg_wf G) (LL : lattice_laws P) S (Ns : list N) (Ds : list D) frank lrank :
    (forall n, In n Ns) -> facts_closed P S Ds -> finite_height P frank lrank ->
    forall st0 st, pinit P S st0 -> psteps G P follow st0 st ->
    ~ exists run : nat -> vstate,
        run 0 = submitInitialValues G P (addZeroSeeds P S) (st_unb st) (st_jf st) (mkV [] []) /\
        forall i, vstep G P (addZeroSeeds P S) (st_unb st) (st_jf st) (run i) (run (Datatypes.S i)).
  Proof.
    intros NF FC FH st0 st Hp Hs. pose proof (addZeroSeeds_closed P _ _ FC) as FC'.
    assert (HI0 := pinit_TInv G P follow S Ds _ FC Hp).
    assert (HI : TInv G P follow Ds st).
    { revert HI0. clear - Hs WF FC'. intros HI0. induction Hs as [|s1 s2 s3 Hs IH Hstep]; auto.
      eapply PInv_pstep; [exact WF|apply inDs_rules; exact FC'|apply IH; exact HI0|exact Hstep]. }
    assert (JDs : forall d1 n d2 f, jf_get (st_jf st) d1 n d2 = Some f -> In d1 Ds /\ In d2 Ds)
      by (intros d1 n d2 f Hf; exact (p_jf _ _ _ _ _ HI _ _ _ _ Hf)).
    assert (JOK := p_ok _ _ _ _ _ HI).
    pose proof (phase2_terminates G P _ Ns Ds frank lrank NF FC' FH (st_unb st) (st_jf st) JOK JDs LL
                _ (VT_submit G P _ Ds FC' (st_unb st) (st_jf st) JOK JDs LL)) as HA.
    intros [run [E Hr]]. rewrite <- E in HA. clear E.
    assert (Hgen : forall v, Acc (fun v' v => vstep G P (addZeroSeeds P S) (st_unb st) (st_jf st) v v') v ->
       forall i, run i = v -> False).
    { intros v Hv. induction Hv as [v _ IH]. intros i E. subst v.
      apply (IH (run (Datatypes.S i)) (Hr i) (Datatypes.S i)). reflexivity. }
    exact (Hgen _ HA 0 eq_refl).
  Qed.
End Results.
