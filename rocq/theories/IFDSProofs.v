From Coq Require Import List Bool Lia.
From Verif Require Import Assoc TableModel TableProofs JumpFunctionsModel IDESolverModel IDESpec
  IDEPhase1 IDEPrecision IDESchedule IDETermination IDEResults IFDSModel IFDSSpec.
Import ListNotations.

Section IFDSP.
  Context {N F D : Type} `{EqDec N} `{EqDec F} `{EqDec D}.
  Variable G : icfg N F.
  Variable W : flows N F D.
  Notation P := (ifdsProblem W).

  Lemma ifds_lattice : lattice_laws P.
  Proof. split; simpl; intros; repeat match goal with x : bdom |- _ => destruct x end; simpl; try reflexivity; split; auto; discriminate. Qed.

  Ltac bcase := simpl; unfold lle; simpl;
    repeat match goal with x : bdom |- _ => destruct x | f : bef |- _ => destruct f end; simpl in *;
    try reflexivity; try discriminate; auto.

  Lemma ifds_sound : ef_sound P.
  Proof. split; intros; bcase. Qed.
  Lemma ifds_precise : ef_precise P.
  Proof. split; intros; bcase. Qed.
  Lemma ifds_exact : ef_exact P.
  Proof.
    split; intros; bcase.
    - match goal with Hx : forall x, _ |- _ => specialize (Hx TOP); discriminate || specialize (Hx BOTTOM); discriminate end.
    - match goal with Hx : forall x, _ |- _ => specialize (Hx BOTTOM); discriminate end.
  Qed.
  Definition bef_rank (f : bef) := match f with bAllTop => 2 | bIdentity => 1 | bAllBottom => 0 end.
  Definition bdom_rank (x : bdom) := match x with TOP => 1 | BOTTOM => 0 end.
  Lemma ifds_height : finite_height P bef_rank bdom_rank.
  Proof. split; intros; bcase; simpl; lia. Qed.

  Lemma ifds_nontop : nontop_preserving G P.
  Proof. intros c stk n d v Hs Hv. inversion Hs; subst; simpl in *; auto. Qed.

  Lemma bottomSeeds_In (S : list (N * list D)) n facts d v : In (n, facts) (bottomSeeds S) -> In (d, v) facts ->
    v = BOTTOM /\ exists ds, In (n, ds) S /\ In d ds.
  Proof.
    unfold bottomSeeds. intros Hin Hf. apply in_map_iff in Hin. destruct Hin as [[n0 ds] [E Hin]].
    injection E; intros; subst. apply in_map_iff in Hf. destruct Hf as [d0 [E2 Hd]]. injection E2; intros; subst. eauto.
  Qed.

  Lemma bottomSeeds_starts (S : list (N * list D)) : (forall n ds, In (n, ds) S -> isStartPoint G n = true) -> seeds_at_starts G (bottomSeeds S).
  Proof.
    intros HS n facts Hin. unfold bottomSeeds in Hin. apply in_map_iff in Hin.
    destruct Hin as [[n0 ds] [E Hin]]. injection E; intros; subst. eauto.
  Qed.

  Lemma zeroSeeds_In S n facts d v : In (n, facts) (addZeroSeeds P (bottomSeeds S)) -> In (d, v) facts ->
    v = BOTTOM /\ exists ds, In (n, ds) S /\ (In d ds \/ d = f_zero W).
  Proof.
    unfold addZeroSeeds, bottomSeeds. rewrite map_map. intros Hin Hf. apply in_map_iff in Hin.
    destruct Hin as [[n0 ds] [E Hin]]. injection E; intros E2 ->. clear E.
    assert (Hm : forall l, In (d, v) (map (fun d => (d, BOTTOM)) l) -> v = BOTTOM /\ In d l).
    { intros l Hl. apply in_map_iff in Hl. destruct Hl as [d0 [E Hd]]. injection E; intros; subst; auto. }
    change (zeroValue P) with (f_zero W) in E2. change (bottomElement P) with BOTTOM in E2.
    destruct (afind (f_zero W) (map (fun d => (d, BOTTOM)) ds)); rewrite <- E2 in Hf.
    - destruct (Hm _ Hf). split; auto. exists ds. auto.
    - clear E2. assert (HA : forall (l : list (D * bdom)) k x, In (d, v) (aset k x l) -> (d = k /\ v = x) \/ In (d, v) l).
      { induction l as [|[k0 x0] l IH]; intros k x Hi; simpl in Hi.
        - destruct Hi as [E|[]]. injection E; intros; subst; auto.
        - destruct (eq_dec k k0).
          + destruct Hi as [E|Hi]; [injection E; intros; subst; auto|right; right; auto].
          + destruct Hi as [E|Hi]; [right; left; auto|]. destruct (IH _ _ Hi); auto. right; right; auto. }
      destruct (HA _ _ _ Hf) as [[-> ->]|Hf'].
      + split; auto. exists ds. auto.
      + destruct (Hm _ Hf'). split; auto. exists ds. auto.
  Qed.

  Lemma zeroSeeds_has S n ds d : In (n, ds) S -> In d ds \/ d = f_zero W ->
    exists facts, In (n, facts) (addZeroSeeds P (bottomSeeds S)) /\ In (d, BOTTOM) facts.
  Proof.
    intros Hin Hd. unfold addZeroSeeds, bottomSeeds. rewrite map_map.
    set (facts := map (fun d => (d, BOTTOM)) ds).
    exists (match afind (f_zero W) facts with Some _ => facts | None => aset (f_zero W) BOTTOM facts end).
    split.
    - apply in_map_iff. exists (n, ds). split; auto.
    - destruct (afind (f_zero W) facts) as [b|] eqn:E.
      + destruct Hd as [Hd| ->].
        * apply in_map_iff. eauto.
        * apply afind_In in E. apply in_map_iff in E. destruct E as [d0 [E Hd]]. injection E; intros; subst.
          apply in_map_iff. eauto.
      + destruct Hd as [Hd| ->].
        * assert (Hx : In (d, BOTTOM) facts) by (apply in_map_iff; eauto).
          clear - Hx. induction facts as [|[k x] l IH]; [destruct Hx|]. simpl.
          destruct (eq_dec (f_zero W) k) as [<-|].
          -- destruct Hx as [E|Hx]; [injection E; intros; subst; left; auto|right; auto].
          -- destruct Hx as [E|Hx]; [left; auto|right; auto].
        * apply afind_In. apply afind_aset_eq.
  Qed.

  Lemma reach_valid S stk n d v :
    reach G P (@anyval bdom) (addZeroSeeds P (bottomSeeds S)) (stk, n, d, v) -> valid G W S stk n d.
  Proof.
    remember (stk, n, d, v) as cf. intros Hr. revert stk n d v Heqcf.
    induction Hr as [n facts d v Hin Hf _|[[[S1 n1] d1] v1] stk n d v Hr IH Hs _]; intros stk' n' d' v' E;
      injection E; intros; subst; clear E.
    - destruct (zeroSeeds_In _ _ _ _ _ Hin Hf) as [_ [ds [Hn [Hd| ->]]]]; [eapply v_seed|eapply v_zero]; eauto.
    - specialize (IH _ _ _ _ eq_refl). inversion Hs; subst;
        [eapply v_normal|eapply v_ctr|eapply v_summary|eapply v_call|eapply v_ret]; eauto.
  Qed.

  Lemma valid_reach S stk n d : valid G W S stk n d ->
    reach G P (@anyval bdom) (addZeroSeeds P (bottomSeeds S)) (stk, n, d, BOTTOM).
  Proof.
    induction 1.
    - destruct (zeroSeeds_has S n ds d) as [facts [Hf Hd]]; auto. eapply reach_seed; eauto. exact I.
    - destruct (zeroSeeds_has S n ds (f_zero W)) as [facts [Hf Hd]]; auto. eapply reach_seed; eauto. exact I.
    - eapply reach_step; [eauto| |exact I]. exact (es_normal G P _ _ _ BOTTOM _ _ H3 H4 H5).
    - eapply reach_step; [eauto| |exact I]. exact (es_ctr G P _ _ _ BOTTOM _ _ H3 H4 H5).
    - eapply reach_step; [eauto| |exact I]. exact (es_summary G P _ _ _ BOTTOM _ _ _ _ H3 H4 H5 H6 H7).
    - eapply reach_step; [eauto| |exact I]. exact (es_call G P _ _ _ BOTTOM _ _ _ H3 H4 H5 H6 H7).
    - eapply reach_step; [eauto| |exact I]. exact (es_ret G P _ _ _ _ _ BOTTOM _ _ H3 H4 H5 H6).
  Qed.

  Lemma t_row_keys (T : table N D bdom) n d : In d (map fst (t_row T n)) <-> t_lookup T n d <> None.
  Proof.
    unfold t_row, t_lookup, afindd. destruct (afind n T) as [row|]; simpl; [|split; [intros []|congruence]].
    split.
    - intros Hin E. apply afind_None in E. auto.
    - intros Hn. destruct (afind d row) as [v|] eqn:E; [|congruence]. apply afind_Some_key in E. exact E.
  Qed.

  Lemma ifds_exact_results S st T :
    icfg_wf G -> single_start G -> summaries_for_declarations G P ->
    (forall n ds, In (n, ds) S -> isStartPoint G n = true) ->
    solved G P false (bottomSeeds S) st T ->
    forall n d, In d (ifdsResultsAt T n) <-> exists stk, valid G W S stk n d.
  Proof.
    intros WF ONE DECL HS Hs n d. unfold ifdsResultsAt. rewrite t_row_keys.
    rewrite (solver_keys G P WF ifds_lattice ifds_sound ifds_precise ONE DECL ifds_nontop) with (S := bottomSeeds S) (st := st); auto.
    - split.
      + intros (stk & v & Hr). exists stk. eapply reach_valid; eauto.
      + intros [stk Hv]. exists stk, BOTTOM. apply valid_reach; auto.
    - simpl. discriminate.
    - intros n0 facts d0 v0 Hin Hf. destruct (bottomSeeds_In _ _ _ _ _ Hin Hf) as [-> _].
      unfold nontop. simpl. discriminate.
    - apply bottomSeeds_starts; auto.
  Qed.

  Lemma ifds_terminates S (Ns : list N) (Ds : list D) follow :
    icfg_wf G -> (forall n, In n Ns) -> facts_closed P (bottomSeeds S) Ds ->
    exists fuel st T, solve G P follow fuel (bottomSeeds S) = Some (st, T).
  Proof.
    intros WF NF FC. eapply solver_terminates; eauto using ifds_lattice, ifds_height.
  Qed.
End IFDSP.
